(** The names and literals of the code generated are those of the program. *)
From Coq Require Import String Ascii List ZArith Bool Arith Lia Permutation.
From Coq Require Import Floats.SpecFloat.
From Verif Require Import Model.Base Model.Scalar Model.Value Model.Ast Model.Errors Model.Interp Model.Options Model.Surface Model.Translate
  Model.Graph Model.Causality Model.Typecheck Model.Clockcheck Model.Positivity Model.Pipeline Model.Names Model.Codegen
  Spec.TranslateSpec Spec.GraphSpec Spec.TypeSpec Spec.AttrSpec Spec.CrashSpec Spec.CodegenSpec
  Proofs.OutBasics Proofs.AstInd Proofs.CausalityProofs Proofs.CoreProofs Proofs.TypeEval Proofs.Unify Proofs.TypeInfer Proofs.TranslateStruct
  Proofs.DeepIds Proofs.NodeWf Proofs.PipelineProofs Proofs.TypeNode Proofs.TypePipeline Proofs.Attrs Proofs.Constants Proofs.NoCrash.
Import ListNotations.
Local Open Scope string_scope.
Local Open Scope list_scope.

Lemma callees_names : forall e f, In f (callees e) -> In f (expr_names e).
Proof.
  assert (L : forall l, Forall (fun e => forall f, In f (callees e) -> In f (expr_names e)) l -> forall f, In f (flat_map callees l) -> In f (flat_map expr_names l)).
  { intros l H f J. apply in_flat_map in J. destruct J as (e & Je & J). apply in_flat_map. exists e. rewrite Forall_forall in H. auto. }
  assert (L2 : forall O (l : list (O * sexpr)), Forall (fun p => forall f, In f (callees (snd p)) -> In f (expr_names (snd p))) l ->
    forall f, In f (flat_map (fun p => callees (snd p)) l) -> In f (flat_map (fun p => expr_names (snd p)) l)).
  { intros O l H f J. apply in_flat_map in J. destruct J as (e & Je & J). apply in_flat_map. exists e. rewrite Forall_forall in H. auto. }
  induction e using sexpr_ind'; intros g J; cbn [callees expr_names] in *; rewrite ?in_app_iff in *; auto.
  all: try (destruct J as [J|J]; [auto|right; eauto]; fail).
  - destruct J.
  - cbn. destruct J as [J|J]; auto.
  - destruct J as [J|[J|J]]; auto.
  - destruct J as [J|[J|J]]; auto.
Qed.

Section Words.
  Variables P W : ident -> Prop.
  Variable Q : f64 -> Prop.

  (** ** Expressions *)
  Definition leaf (e : expr) : Prop :=
    match e with EVar x _ | EGlobal x => P x | ELit (LFloat f) => Q f | _ => True end.
  Definition clean (e : expr) : Prop := forall c, occurs c e -> leaf c.

  Lemma clean_intro : forall e, leaf e -> (forall c, In c (children e) -> clean c) -> clean e.
  Proof. intros e L H c O. inversion O; subst; auto. eapply H; eauto. Qed.
  Lemma clean_child : forall e c, clean e -> In c (children e) -> clean c.
  Proof. intros e c H J x O. apply H. eapply occ_child; eauto. Qed.
  Lemma clean_occurs : forall e c, clean e -> occurs c e -> clean c.
  Proof. intros e c H J x O. apply H. eapply occurs_trans; eauto. Qed.

  Definition source_clean (e : sexpr) : Prop := (forall x, In x (expr_names e) -> P x) /\ (forall f, In f (floats e) -> Q f).

  Lemma source_in : forall l t e, source_clean (XParen l t) -> In e l -> source_clean e.
  Proof. intros l t e [A B] J. split; intros y K; [apply A|apply B]; cbn; apply in_flat_map; eauto. Qed.
  Lemma source_in2 : forall {O} (l : list (O * sexpr)), (forall x, In x (flat_map (fun p => expr_names (snd p)) l) -> P x) ->
    (forall f, In f (flat_map (fun p => floats (snd p)) l) -> Q f) -> forall p, In p l -> source_clean (snd p).
  Proof. intros O l A B p J. split; intros y K; [apply A|apply B]; apply in_flat_map; eauto. Qed.

  Ltac kids := apply clean_intro; [exact I|cbn [children]; let J := fresh in intros ? J; cbn in J; repeat destruct J as [<-|J]; auto; destruct J].

  Lemma clean_paren : forall es t, Forall clean es -> clean (paren es t).
  Proof.
    intros es t H. assert (T : clean (ETuple es)) by (apply clean_intro; [exact I|cbn; rewrite Forall_forall in H; auto]).
    destruct es as [|e [|e' es]], t; auto. inversion H; subst. cbn. kids.
  Qed.

  Lemma tr_clean : forall u vars e d s e' s', result (tr u vars e d s) = Some (e', s') -> source_clean e -> clean e'.
  Proof.
    intros u vars. pose (R := fun e => forall d s e' s', result (tr u vars e d s) = Some (e', s') -> source_clean e -> clean e').
    assert (Elems : forall l, Forall R l -> forall d s l' s', result (tr_elems (tr u vars) l d s) = Some (l', s') ->
      (forall e, In e l -> source_clean e) -> Forall clean l').
    { induction 1 as [|e l He _ IH]; intros d s l' s' H C; cbn [tr_elems] in H; [inv_out; constructor|].
      apply obind_some in H. destruct H as ((e1, s1) & E1 & H). apply obind_some in H. destruct H as ((l1, s2) & E2 & H). inv_out.
      constructor; [eapply He; eauto; apply C; cbn; auto|eapply IH; eauto; intros; apply C; cbn; auto]. }
    assert (Left : forall O (compose : O -> expr -> expr -> expr), (forall o a b, clean a -> clean b -> clean (compose o a b)) ->
      forall l, Forall (fun p => R (snd p)) l -> forall acc d s e' s',
      result (tr_left (tr u vars) compose acc l d s) = Some (e', s') -> clean acc -> (forall p, In p l -> source_clean (snd p)) -> clean e').
    { intros O compose Cc. induction 1 as [|[o e] l He _ IH]; intros acc d s e' s' H Ca C; cbn [tr_left] in H; [inv_out; auto|].
      apply obind_some in H. destruct H as ((e1, s1) & E1 & H). eapply IH; eauto; [|intros; apply C; cbn; auto].
      apply Cc; auto. eapply He; eauto. apply (C (o, e)). cbn; auto. }
    assert (Right : forall bump (compose : nat -> nat -> expr -> expr -> tst -> expr * tst), (forall d i a b s, clean a -> clean b -> clean (fst (compose d i a b s))) ->
      forall l, Forall R l -> forall i d s o s', result (tr_right (tr u vars) bump compose i l d s) = Some (o, s') ->
      (forall e, In e l -> source_clean e) -> forall e', o = Some e' -> clean e').
    { intros bump compose Cc. induction 1 as [|e l He _ IH]; intros i d s o s' H C e' Eo; cbn [tr_right] in H; [inv_out|].
      apply obind_some in H. destruct H as ((acc, s1) & E1 & H). apply obind_some in H. destruct H as ((e1, s2) & E2 & H).
      assert (C1 : clean e1) by (eapply He; eauto; apply C; cbn; auto).
      destruct acc as [after|].
      - destruct (compose d i e1 after s2) as [r s3] eqn:Z. inv_out. change e' with (fst (e', s')). rewrite <- Z. apply Cc; auto.
        eapply IH; eauto. intros; apply C; cbn; auto.
      - cbn in H. assert (e' = e1) by congruence. subst. auto. }
    assert (Cb : forall o a b, clean a -> clean b -> clean (EBin o a b)) by (intros; kids).
    assert (Ck : forall o a b, clean a -> clean b -> clean (EClock o a b)) by (intros; kids).
    assert (Cf : forall d i a b s, clean a -> clean b -> clean (fst ((if u then fby_registers else later) d i a b s))) by (intros; destruct u; cbn; kids).
    assert (Ct : forall d i a b s, clean a -> clean b -> clean (fst ((if u then then_flips else later) d i a b s))) by (intros; destruct u; cbn; kids).
    assert (Sp : forall a b c, source_clean (XIf a b c) -> source_clean a /\ source_clean b /\ source_clean c).
    { intros a b c [A B]. cbn in A, B. repeat split; intros y J; first [apply A|apply B]; rewrite !in_app_iff; auto. }
    assert (Sh : forall O e (l : list (O * sexpr)), (forall x, In x (expr_names e ++ flat_map (fun p => expr_names (snd p)) l) -> P x) ->
      (forall x, In x (floats e ++ flat_map (fun p => floats (snd p)) l) -> Q x) -> source_clean e /\ forall p, In p l -> source_clean (snd p)).
    { intros O e l A B. split; [split; intros y J; first [apply A|apply B]; rewrite in_app_iff; auto|].
      apply source_in2; intros y J; first [apply A|apply B]; rewrite in_app_iff; auto. }
    assert (Sl : forall e l, source_clean (XFby e l) -> source_clean e /\ forall x, In x l -> source_clean x).
    { intros e l [A B]. cbn in A, B. split; [split; intros y J; first [apply A|apply B]; rewrite in_app_iff; auto|].
      intros x Jx. apply (source_in l true); auto. split; intros y J; first [apply A|apply B]; rewrite in_app_iff; auto. }
    intros e. change (R e). induction e using sexpr_ind'; intros d s e' s' E C; cbn [tr] in E.
    - apply obind_some in E. destruct E as (x & E & F). inversion F; subst. destruct l as [z|f|b|]; cbn [tr_lit] in E; try discriminate.
      + destruct (in_i64 z); inversion E; subst. kids.
      + inversion E; subst. apply clean_intro; [apply C; cbn; auto|intros ? []].
      + inversion E; subst. kids.
    - inversion E; subst. assert (Px : P x) by (apply C; cbn; auto). unfold tr_var. destruct (existsb (String.eqb x) vars); apply clean_intro; auto; intros ? [].
    - apply obind_some in E. destruct E as ((es, s1) & E & F). inversion F; subst. apply clean_paren. eapply Elems; eauto. intros. eapply source_in; eauto.
    - apply obind_some in E. destruct E as ((es, s1) & E & F). inversion F; subst.
      assert (K : clean (paren es b)).
      { apply clean_paren. eapply Elems; eauto. intros. eapply (source_in l b); eauto. destruct C as [A B]. split; auto. intros; apply A; cbn; auto. }
      kids.
    - apply obind_some in E. destruct E as ((es, s1) & E & F). inversion F; subst. assert (K : clean es) by (eapply IHe; eauto). kids.
    - apply obind_some in E. destruct E as ((es, s1) & E & F). inversion F; subst. assert (K : clean es) by (eapply IHe; eauto). kids.
    - destruct u; apply obind_some in E; destruct E as ((es, s1) & E & F); inversion F; subst; (assert (K : clean es) by (eapply IHe; eauto)); kids.
    - apply Sp in C. destruct C as (C1 & C2 & C3). apply obind_some in E. destruct E as ((x1, s1) & E1 & E). apply obind_some in E. destruct E as ((x2, s2) & E2 & E).
      apply obind_some in E. destruct E as ((x3, s3) & E3 & E). inversion E; subst. eapply IHe1 in E1; eauto. eapply IHe2 in E2; eauto. eapply IHe3 in E3; eauto. kids.
    - change (source_clean (XIf e1 e2 e3)) in C. apply Sp in C. destruct C as (C1 & C2 & C3). apply obind_some in E. destruct E as ((x1, s1) & E1 & E). apply obind_some in E. destruct E as ((x2, s2) & E2 & E).
      apply obind_some in E. destruct E as ((x3, s3) & E3 & E). inversion E; subst. eapply IHe1 in E1; eauto. eapply IHe2 in E2; eauto. eapply IHe3 in E3; eauto. kids.
    - apply obind_some in E. destruct E as ((x1, s1) & E1 & E). destruct C as [A B]. destruct (Sh _ _ _ A B) as [C1 C2]. assert (K1 : clean x1) by (eapply IHe; eauto). exact (Left _ _ Cb _ H _ _ _ _ _ E K1 C2).
    - apply obind_some in E. destruct E as ((x1, s1) & E1 & E). destruct C as [A B]. destruct (Sh _ _ _ A B) as [C1 C2].
      destruct l as [|[c y] [|[c' y'] l]].
      + inversion E; subst. eapply IHe; eauto.
      + apply obind_some in E. destruct E as ((x2, s2) & E2 & E). inversion E; subst. inversion H; subst. cbn [snd] in *.
        assert (K1 : clean x1) by (eapply IHe; eauto). assert (K2 : clean x2) by (eapply H2; [exact E2|apply (C2 (c, y)); cbn; auto]). kids.
      + apply obind_some in E. destruct E as ((x2, s2) & E2 & E). apply obind_some in E. destruct E as ((x3, s3) & E3 & E). inv_out.
    - apply obind_some in E. destruct E as ((x1, s1) & E1 & E). destruct C as [A B]. destruct (Sh _ _ _ A B) as [C1 C2]. assert (K1 : clean x1) by (eapply IHe; eauto). exact (Left _ _ Ck _ H _ _ _ _ _ E K1 C2).
    - apply Sl in C. destruct C as [C1 C2]. apply obind_some in E. destruct E as ((acc, s1) & E1 & E). apply obind_some in E. destruct E as ((x, s2) & E2 & E).
      assert (K2 : clean x) by (eapply IHe; eauto). destruct acc as [after|]; [|inversion E; subst; auto].
      assert (K : clean after) by (eapply (Right _ _ Cf _ H); [exact E1|exact C2|reflexivity]). inversion E as [Z]. change e' with (fst (e', s')). rewrite <- Z. apply Cf; auto.
    - change (source_clean (XFby e l)) in C. apply Sl in C. destruct C as [C1 C2]. apply obind_some in E. destruct E as ((acc, s1) & E1 & E). apply obind_some in E. destruct E as ((x, s2) & E2 & E).
      assert (K2 : clean x) by (eapply IHe; eauto). destruct acc as [after|]; [|inversion E; subst; auto].
      assert (K : clean after) by (eapply (Right _ _ Ct _ H); [exact E1|exact C2|reflexivity]). inversion E as [Z]. change e' with (fst (e', s')). rewrite <- Z. apply Ct; auto.
  Qed.

  (** ** Declarations *)
  Definition base_fine (b : base) : Prop := match b with BOther t => W t | _ => True end.
  Fixpoint ty_fine (t : ty) : Prop :=
    match t with TSingle b => base_fine b | TMult l => fold_right (fun t Z => ty_fine t /\ Z) True l end.
  Definition clock_fine (c : clock) : Prop := match c with CExplicit _ x => P x | _ => True end.
  Definition var_fine (v : tyvar) : Prop := P (v_name v) /\ base_fine (v_base v) /\ clock_fine (v_clk v).
  Fixpoint target_fine (t : vartuple) : Prop :=
    match t with VTSingle x => P x | VTMult l => fold_right (fun t Z => target_fine t /\ Z) True l end.
  Definition option_clean (o : option expr) : Prop := match o with Some e => clean e | None => True end.
  Definition stmt_fine (i : stmt) : Prop :=
    match i with
    | SLet t e => target_fine t /\ clean e
    | SAssert e | SUpdate _ e => clean e
    | SInit _ v c => option_clean v /\ option_clean c
    end.
  Definition all_read (nd : node) : Prop :=
    Permutation (flat_map deep_regs (flat_map stmt_exprs (filter sourced (n_stmts nd)))) (seq 0 (length (n_regs nd))).
  Definition fine (d : decl) : Prop :=
    match d with
    | DConst _ x t e => P x /\ base_fine t /\ clean e
    | DExtConst _ x t => P x /\ base_fine t
    | DNode o nd => P (n_name nd) /\ Forall var_fine (all_vars nd) /\ Forall P (o_generics o) /\ Forall P (n_blocks nd) /\ Forall stmt_fine (n_stmts nd) /\ all_read nd
    | DExtNode o x i o' => P x /\ Forall var_fine (i ++ o') /\ Forall P (oe_generics o)
    end.

  Lemma fold_all : forall {A} (f : A -> Prop) l, fold_right (fun a Z => f a /\ Z) True l <-> Forall f l.
  Proof. intros A f l. induction l as [|a l IH]; cbn; [split; auto|]. rewrite IH. split; [intros []; auto|intros H; inversion H; auto]. Qed.

  (** *** Translation *)
  Lemma vars_fine : forall l, (forall x, In x (vars_names l) -> P x) -> (forall x, In x (vars_types l) -> W x) -> Forall var_fine (tr_decls l).
  Proof.
    intros l H Ht. apply Forall_forall. intros v J. unfold tr_decls in J. apply in_flat_map in J. destruct J as ([xs [b c]] & J & K).
    apply in_map_iff in K. destruct K as (x & <- & K).
    assert (G : forall y, In y (xs ++ type_names b ++ clock_names c) -> P y).
    { intros y Y. apply H. unfold vars_names. apply in_flat_map. exists (xs, (b, c)). auto. }
    split; [|split]; cbn.
    - apply G, in_app_iff. auto.
    - destruct b as [| | |b]; cbn; auto. apply Ht. unfold vars_types. apply in_flat_map. exists (xs, (BOther b, c)). cbn. auto.
    - destruct c; cbn; auto. apply G. rewrite !in_app_iff. cbn. auto.
  Qed.
  Lemma target_clean : forall t, (forall x, In x (target_names t) -> P x) -> target_fine (tr_target t).
  Proof.
    fix IH 1. intros [x|l t] H; [apply H; cbn; auto|]. cbn [tr_target target_names] in *.
    assert (F : Forall target_fine (map tr_target l)).
    { clear t. induction l as [|a l IHl]; cbn; constructor; [apply IH; intros; apply H; cbn; apply in_app_iff; auto|].
      apply IHl. intros; apply H; cbn; apply in_app_iff; auto. }
    assert (Tm : target_fine (VTMult (map tr_target l))) by (cbn; apply fold_all; auto).
    destruct (map tr_target l) as [|v [|v' vs]], t; auto. inversion F; auto.
  Qed.

  Definition source_fine (a : sattrdecl) : Prop :=
    (forall x, In x (CodegenSpec.names a) -> P x) /\ (forall x, In x (decl_types (snd a)) -> W x) /\ (forall e f, In e (expressions (snd a)) -> In f (floats e) -> Q f).

  Lemma tr_node_fine : forall o sn nd, result (tr_node o sn) = Some nd -> Forall P (o_generics o) ->
    (forall x, In x (decl_names (XNode sn)) -> P x) -> (forall x, In x (decl_types (XNode sn)) -> W x) -> (forall e f, In e (expressions (XNode sn)) -> In f (floats e) -> Q f) -> fine (DNode o nd).
  Proof.
    intros o sn nd H G N Nt F. pose proof (tr_node_translated _ _ _ H) as Td. cbn [fine]. cbn [decl_names decl_types expressions] in N, Nt, F.
    assert (Src : forall i, In i (filter sourced (n_stmts nd)) -> stmt_fine i).
    { intros i J. destruct (forall2_in_r _ _ _ (td_sourced _ _ _ Td) _ J) as (si & Ji & (s & s' & e' & bl & E & X)).
      assert (C : source_clean match si with XDef _ e | XAssert e => e end).
      { split.
        - intros x Jx. apply N. cbn. right. rewrite !in_app_iff. do 3 right. apply in_flat_map. exists si. split; auto. destruct si; [apply in_app_iff|]; auto.
        - intros f Jf. eapply F; eauto. apply in_map_iff. exists si. auto. }
      destruct si as [t e|e]; destruct E as [E ->]; cbn [stmt_fine]; eapply tr_clean in E; eauto. split; auto.
      apply target_clean. intros x Jx. apply N. right. rewrite !in_app_iff. do 3 right. apply in_flat_map. exists (XDef t e). split; auto. apply in_app_iff. auto. }
    assert (Oc : forall e x, In e (flat_map stmt_exprs (filter sourced (n_stmts nd))) -> occurs x e -> clean x).
    { intros e x J O. apply in_flat_map in J. destruct J as (i & Ji & Je). pose proof (Src _ Ji) as Fi. apply filter_In in Ji.
      eapply clean_occurs; [|eauto]. destruct i; cbn in Je, Fi; try (destruct Ji; discriminate); destruct Je as [<-|[]]; tauto. }
    split; [rewrite (td_name _ _ _ Td); apply N; cbn; auto|]. split; [|split; [auto|split; [|split]]].
    - unfold all_vars. rewrite (td_inputs _ _ _ Td), (td_outputs _ _ _ Td), (td_locals _ _ _ Td), !Forall_app.
      repeat split; apply vars_fine; intros x J; first [apply Nt; rewrite !in_app_iff; auto; fail|apply N; cbn; rewrite !in_app_iff; auto].
    - apply Forall_forall. intros f J. destruct (tr_node_blocks _ _ _ _ H J) as (e & Je & Jf). cbn [expressions] in Je.
      apply in_map_iff in Je. destruct Je as (i & <- & Ji). apply N. cbn. right. rewrite !in_app_iff. do 3 right. apply in_flat_map. exists i. split; auto.
      apply callees_names in Jf. destruct i; [apply in_app_iff|]; auto.
    - apply Forall_forall. intros i J. destruct (sourced i) eqn:Si; [apply Src, filter_In; auto|]. destruct i as [t e|e|id v c|id e]; try discriminate.
      + assert (c = None) by (eapply translated_init_none; eauto). subst c. split; [|exact I].
        destruct (td_init_occurs _ _ _ Td _ _ _ J) as (n & e & Je & O). apply (Oc _ _ Je) in O. destruct v as [v|]; cbn; auto.
        eapply clean_child; [exact O|cbn; auto].
      + destruct (td_update_occurs _ _ _ Td _ _ J) as (i & e' & Je & O). apply (Oc _ _ Je) in O. cbn. eapply clean_child; [exact O|cbn; apply in_app_iff; cbn; auto].
    - unfold all_read. apply tr_node_deep in H. apply H.
  Qed.

  Lemma tr_fine : forall a d, result (tr_attrdecl a) = Some d -> source_fine a -> fine d.
  Proof.
    intros [at_ sd] d H (N & Nt & F). pose proof (tr_attributed _ _ H) as (es & M & _ & Ca). pose proof (generics_params _ _ M) as Gp.
    cbn [fst snd] in *. unfold CodegenSpec.names in N. cbn [fst snd] in N.
    assert (Pg : Forall P (generics es)).
    { rewrite Gp. apply Forall_forall. intros x J. apply N, in_app_iff. left. unfold type_params in J. apply in_flat_map in J. destruct J as (b & Jb & J).
      apply in_flat_map. exists b. split; auto. destruct (String.eqb (a_action b) "generic"); [auto|destruct J]. }
    assert (Nd : forall x, In x (decl_names sd) -> P x) by (intros; apply N, in_app_iff; auto). clear N.
    unfold tr_attrdecl in H. apply obind_some in H. destruct H as (od & _ & H).
    destruct sd as [x t e|sn|x t|x i o']; cbn [snd tr_decl] in H; apply obind_some in H; destruct H as (o & _ & H).
    - apply obind_some in H. destruct H as ((e', s) & E & H). destruct (t_stmts s), (t_blocks s); inversion H; subst. cbn [fine]. cbn [decl_names decl_types] in Nd, Nt.
      split; [apply Nd; cbn; auto|]. split; [destruct t; cbn; auto; apply Nt; cbn; auto|]. eapply tr_clean; eauto. split.
      + intros y J. apply Nd. right. apply in_app_iff. auto.
      + intros f J. eapply F; eauto. cbn. auto.
    - apply obind_some in H. destruct H as (nd & E & H). inversion H; subst. inversion Ca as [? ? ? No Nn| | |]; subst.
      eapply tr_node_fine; eauto. rewrite (no_generics _ _ No). auto.
    - inversion H; subst. split; [apply Nd; cbn; auto|]. destruct t; cbn; auto. apply Nt; cbn; auto.
    - inversion H; subst. inversion Ca as [| | |? ? ? ? ? ? No]; subst. cbn [fine]. cbn [decl_names decl_types] in Nd, Nt. split; [apply Nd; cbn; auto|].
      rewrite (eo_generics _ _ No). split; auto. rewrite Forall_app. split; apply vars_fine; intros y J; first [apply Nt; rewrite in_app_iff; auto; fail|apply Nd; cbn; rewrite in_app_iff; auto].
  Qed.

  (** *** Scheduling *)
  Lemma causality_fine : forall d d', decl_causality d = inl d' -> fine d -> fine d'.
  Proof.
    intros d d' D F. destruct d; cbn [decl_causality] in D; try (inversion D; subst; exact F).
    destruct (node_causality nd) as [nd'|] eqn:N; inversion D; subst. apply node_stmts_perm in N. destruct N as [Pm En].
    cbn [fine] in *. destruct F as (A & B & C & D' & E & G).
    assert (G' : all_read nd').
    { unfold all_read in *. replace (n_regs nd') with (n_regs nd) by (rewrite En; reflexivity). rewrite <- G.
      apply Permutation_flat_map, Permutation_flat_map, perm_sourced, Pm. }
    repeat split; auto; try (rewrite En; exact A); try (rewrite En; exact B); try (rewrite En; exact D').
    eapply Permutation_Forall; [apply Permutation_sym; exact Pm|exact E].
  Qed.

  (** *** Types *)
  Definition images_fine (m : list (ident * option base)) : Prop := forall x b, In (x, Some b) m -> base_fine b.
  Lemma require_images : forall m l r u, result (require_identical (UMapping m) l r) = Some u -> images_fine m -> base_fine r ->
    exists m', u = UMapping m' /\ images_fine m'.
  Proof.
    intros m l r u H I R. unfold require_identical in H. destruct l as [| | |x]; try (destruct (base_eqb _ r); inversion H; subst; eauto; fail).
    destruct (lookup x m) as [[v|]|]; [|inversion H; subst|discriminate].
    - destruct (base_eqb v r); inversion H; subst; eauto.
    - eexists. split; [reflexivity|]. intros y b J. apply in_map_iff in J. destruct J as ([z o] & E & J). inversion E; subst.
      destruct (String.eqb x y); [inversion H2; subst; auto|]. subst. eapply I; eauto.
  Qed.
  Lemma identical_images : forall a m b u, result (identical (UMapping m) a b) = Some u -> images_fine m -> ty_fine b ->
    exists m', u = UMapping m' /\ images_fine m'.
  Proof.
    induction a using ty_ind'; intros m b' u E I F.
    - destruct b' as [r|]; [|discriminate]. cbn in E. eapply require_images; eauto.
    - destruct b' as [|us]; [discriminate|]. rewrite identical_mult in E. match type of E with context [if ?c then _ else _] => destruct c; [|discriminate] end.
      apply obind_some in E. destruct E as (r & E & N). apply need_some in N. subst r.
      cbn [ty_fine] in F. apply fold_all in F. revert m us E I F. induction H as [|t ts Ht _ IH]; intros m us E I F.
      + cbn in E. inversion E; subst. eauto.
      + destruct us as [|v us]; [cbn in E; inversion E; subst; eauto|]. cbn [identicals] in E. inversion F; subst.
        apply obind_some in E. destruct E as (r & E1 & E). apply attempt_some in E1. destruct r as [u1|].
        * destruct (Ht _ _ _ E1 I H1) as (m1 & -> & I1). eauto.
        * apply obind_some in E. destruct E as (? & _ & E). discriminate.
  Qed.
  Lemma subst_fine : forall m t, images_fine m -> ty_fine t -> ty_fine (subst_ty m t).
  Proof.
    intros m t I. induction t using ty_ind'; intros F; cbn [subst_ty ty_fine] in *.
    - destruct b as [| | |x]; cbn; auto. destruct (lookup x m) as [[v|]|] eqn:L; auto. apply lookup_found in L. eapply I; eauto.
    - apply fold_all. apply fold_all in F. apply Forall_forall. intros u J. apply in_map_iff in J. destruct J as (t & <- & J).
      rewrite Forall_forall in H, F. auto.
  Qed.
  Lemma flat_fine : forall l, Forall base_fine l -> ty_fine (flat l).
  Proof.
    intros l H. assert (G : ty_fine (TMult (map TSingle l))) by (cbn; apply fold_all, Forall_map; exact H).
    destruct l as [|b [|b' l]]; auto. inversion H; auto.
  Qed.

  Lemma generics_blank : forall l u, result (from_generics l) = Some u -> exists m, u = UMapping m /\ images_fine m.
  Proof.
    induction l as [|g l IH]; intros u H; cbn [from_generics] in H; [inversion H; subst; exists []; split; auto; intros ? ? []|].
    apply obind_some in H. destruct H as (u' & E & H). destruct (IH _ E) as (m & -> & I). destruct (existsb (String.eqb g) l); inversion H; subst.
    eexists. split; [reflexivity|]. intros x b [J|J]; [discriminate|eapply I; eauto].
  Qed.

  Record ctx_fine (c : tctx) : Prop := mkCtxFine {
    cf_vars : forall x b, lookup x (c_vars c) = Some b -> base_fine b;
    cf_globals : forall x b, lookup x (c_global c) = Some b -> base_fine b;
    cf_blocks : forall g, In g (c_blocks c) -> Forall base_fine (g_outs g)
  }.
  Definition regs_fine (s : tyst) : Prop := forall id t, In (id, t) (y_regs s) -> ty_fine t.

  Lemma tc_fine : forall ctx, ctx_fine ctx -> forall e s t s', result (tc ctx e s) = Some (t, s') -> regs_fine s -> ty_fine t /\ regs_fine s'.
  Proof.
    intros ctx C. pose (R := fun e => forall s t s', result (tc ctx e s) = Some (t, s') -> regs_fine s -> ty_fine t /\ regs_fine s').
    assert (Prim : forall e s b s', R e -> result (primitive (tc ctx e s)) = Some (b, s') -> regs_fine s -> base_fine b /\ regs_fine s').
    { intros e s b s' He E F. unfold primitive in E. apply obind_some in E. destruct E as ((t, s1) & E1 & E). apply obind_some in E. destruct E as (b1 & E2 & E).
      inversion E; subst. destruct (He _ _ _ E1 F) as [A B]. destruct t; inversion E2; subst. auto. }
    intros e. change (R e). induction e using expr_ind'; intros s t s' E F; cbn [tc] in E.
    - inversion E; subst. split; auto. destruct l; cbn; auto.
    - destruct (lookup x (c_vars ctx)) eqn:L; inversion E; subst. split; auto. cbn. eapply (cf_vars _ C); eauto.
    - destruct (lookup x (c_global ctx)) eqn:L; inversion E; subst. split; auto. cbn. eapply (cf_globals _ C); eauto.
    - apply obind_some in E. destruct E as ((ts, s1) & E & Z). inversion Z; subst. change (result (tcs ctx l s) = Some (ts, s')) in E.
      assert (G : Forall ty_fine ts /\ regs_fine s'); [|destruct G; split; auto; cbn; apply fold_all; auto].
      clear Z. revert s ts s' E F. induction H as [|e l He _ IH]; intros s ts s' E F; cbn [tcs] in E; [inversion E; subst; auto|].
      apply obind_some in E. destruct E as ((t1, s1) & E1 & E). apply obind_some in E. destruct E as ((t2, s2) & E2 & E). inversion E; subst.
      destruct (He _ _ _ E1 F) as [A1 B1]. destruct (IH _ _ _ E2 B1) as [A2 B2]. auto.
    - eauto.
    - eauto.
    - apply obind_some in E. destruct E as (l & E1 & E). apply attempt_some in E1. apply obind_some in E. destruct E as (r & E2 & E). apply attempt_some in E2.
      apply obind_some in E. destruct E as ((lb, ls) & N1 & E). apply need_some in N1. apply obind_some in E. destruct E as ((rb, rs) & N2 & E). apply need_some in N2. rewrite N1 in E1, E2. rewrite N2 in E2. clear N1 N2.
      apply obind_some in E. destruct E as (u & _ & E). inversion E; subst.
      destruct (Prim _ _ _ _ IHe1 E1 F) as [A1 B1]. cbn [next_st] in E2. destruct (Prim _ _ _ _ IHe2 E2 B1) as [A2 B2]. auto.
    - apply obind_some in E. destruct E as ((b, s1) & E1 & E). apply obind_some in E. destruct E as (u & _ & E). inversion E; subst. eapply (Prim e); eauto.
    - apply obind_some in E. destruct E as (l & E1 & E). apply attempt_some in E1. apply obind_some in E. destruct E as (r & E2 & E). apply attempt_some in E2.
      apply obind_some in E. destruct E as ((lb, ls) & N1 & E). apply need_some in N1. apply obind_some in E. destruct E as ((rb, rs) & N2 & E). apply need_some in N2. rewrite N1 in E1, E2. rewrite N2 in E2. clear N1 N2.
      apply obind_some in E. destruct E as (u & _ & E). inversion E; subst.
      destruct (Prim _ _ _ _ IHe1 E1 F) as [A1 B1]. cbn [next_st] in E2. destruct (Prim _ _ _ _ IHe2 E2 B1) as [A2 B2]. cbn. auto.
    - apply obind_some in E. destruct E as (l & E1 & E). apply attempt_some in E1. apply obind_some in E. destruct E as ((t1, s1) & E2 & E).
      apply obind_some in E. destruct E as ((lb, ls) & N1 & E). apply need_some in N1. rewrite N1 in E1, E2. clear N1. apply obind_some in E. destruct E as (u & _ & E). inversion E; subst.
      destruct (Prim _ _ _ _ IHe2 E1 F) as [A1 B1]. cbn [next_st] in E2. eauto.
    - apply obind_some in E. destruct E as (l & E1 & E). apply attempt_some in E1. apply obind_some in E. destruct E as (r & E2 & E). apply attempt_some in E2.
      apply obind_some in E. destruct E as ((lb, ls) & N1 & E). apply need_some in N1. apply obind_some in E. destruct E as ((rb, rs) & N2 & E). apply need_some in N2. rewrite N1 in E1, E2. rewrite N2 in E2. clear N1 N2.
      apply obind_some in E. destruct E as (u & _ & E). inversion E; subst.
      destruct (IHe1 _ _ _ E1 F) as [A1 B1]. cbn [next_st] in E2. destruct (IHe2 _ _ _ E2 B1) as [A2 B2]. auto.
    - apply obind_some in E. destruct E as ((t1, s1) & E1 & E). apply obind_some in E. destruct E as (s2 & E2 & E). inversion E; subst.
      destruct (IHe _ _ _ E1 F) as [A1 B1]. split; auto.
      assert (B2 : regs_fine s2).
      { destruct i as [i|]; [|inversion E2; subst; auto]. apply obind_some in E2. destruct E2 as ((t3, s3) & E3 & E2). apply obind_some in E2. destruct E2 as (u & _ & E2).
        inversion E2; subst. cbn in H. destruct (H _ _ _ E3 B1). auto. }
      intros id' t' [J|J]; [inversion J; subst; auto|eapply B2; eauto].
    - apply obind_some in E. destruct E as (l & E1 & E). apply attempt_some in E1. apply obind_some in E. destruct E as (r & E2 & E). apply attempt_some in E2.
      apply obind_some in E. destruct E as ((lb, ls) & N1 & E). apply need_some in N1. apply obind_some in E. destruct E as ((rb, rs) & N2 & E). apply need_some in N2. rewrite N1 in E1, E2. rewrite N2 in E2. clear N1 N2.
      apply obind_some in E. destruct E as (u & _ & E). inversion E; subst.
      destruct (IHe1 _ _ _ E1 F) as [A1 B1]. cbn [next_st] in E2. destruct (IHe2 _ _ _ E2 B1) as [A2 B2]. auto.
    - apply obind_some in E. destruct E as (c & E1 & E). apply attempt_some in E1. apply obind_some in E. destruct E as (y & E2 & E). apply attempt_some in E2.
      apply obind_some in E. destruct E as (n & E3 & E). apply attempt_some in E3.
      apply obind_some in E. destruct E as ((cb, cs) & N1 & E). apply need_some in N1. apply obind_some in E. destruct E as (u & _ & E).
      apply obind_some in E. destruct E as ((yb, ys) & N2 & E). apply need_some in N2. apply obind_some in E. destruct E as ((nb, ns) & N3 & E). apply need_some in N3. rewrite N1 in E1, E2, E3. rewrite N2 in E2, E3. rewrite N3 in E3. clear N1 N2 N3.
      apply obind_some in E. destruct E as (u' & _ & E). inversion E; subst. cbn [next_st] in *.
      destruct (Prim _ _ _ _ IHe1 E1 F) as [A1 B1]. destruct (IHe2 _ _ _ E2 B1) as [A2 B2]. destruct (IHe3 _ _ _ E3 B2) as [A3 B3]. auto.
    - apply obind_some in E. destruct E as ((c, s1) & E1 & E). apply obind_some in E. destruct E as ((x, s2) & E2 & E). apply obind_some in E. destruct E as ((y, s3) & E3 & E).
      apply obind_some in E. destruct E as (u & _ & E). apply obind_some in E. destruct E as (u1 & _ & E). apply obind_some in E. destruct E as (u2 & _ & E). inversion E; subst.
      destruct (IHe1 _ _ _ E1 F) as [A1 B1]. destruct (IHe2 _ _ _ E2 B1) as [A2 B2]. destruct (IHe3 _ _ _ E3 B2) as [A3 B3]. auto.
    - destruct (nth_error (c_blocks ctx) id) as [g|] eqn:Ng; [|discriminate]. apply nth_error_In in Ng.
      apply obind_some in E. destruct E as ((t1, s1) & E1 & E). apply obind_some in E. destruct E as (u & E2 & E). apply obind_some in E. destruct E as (u' & E3 & E).
      destruct (IHe _ _ _ E1 F) as [A1 B1].
      apply generics_blank in E2. destruct E2 as (m0 & -> & I0). destruct (identical_images _ _ _ _ E3) as (m & -> & Im); auto.
      apply obind_some in E. destruct E as (l & _ & E). inversion E; subst. split; [|exact B1].
      apply subst_fine; auto. apply flat_fine. apply (cf_blocks _ C); auto.
  Qed.

  Lemma tc_stmts_fine : forall ctx, ctx_fine ctx -> forall l s s', result (tc_stmts ctx l s) = Some (Some s') -> regs_fine s -> regs_fine s'.
  Proof.
    intros ctx C. induction l as [|i l IH]; intros s s' H F; cbn [tc_stmts] in H; [inversion H; subst; auto|].
    apply obind_some in H. destruct H as (r & E & H). apply attempt_some in E.
    destruct r as [s1|]; [|apply obind_some in H; destruct H as (? & _ & H); discriminate]. eapply IH; eauto. clear H IH.
    destruct i as [t e|e|id v c|id e]; cbn [tc_stmt] in E; try (inversion E; subst; exact F).
    - apply obind_some in E. destruct E as (t' & _ & E). apply obind_some in E. destruct E as (r & E2 & E). apply attempt_some in E2.
      apply obind_some in E. destruct E as (t2 & _ & E). apply obind_some in E. destruct E as ((rt, rs) & E4 & E). apply need_some in E4. rewrite E4 in E2.
      apply obind_some in E. destruct E as (u & _ & E). inversion E; subst. eapply tc_fine; eauto.
    - apply obind_some in E. destruct E as ((b, s2) & E1 & E). apply obind_some in E. destruct E as (u & _ & E). inversion E; subst.
      apply primitive_some in E1. destruct E1 as (t & E1). eapply tc_fine; eauto.
  Qed.

  Definition sig_fine (g : fsig) : Prop := Forall base_fine (g_outs g).
  (** The types of the registers are known. *)
  Definition checked (d : decl) : Prop :=
    match d with
    | DConst _ _ _ e => cexpr e /\ forall x n, ~ occurs (EVar x n) e
    | DNode _ nd => Forall (fun r => exists t, r = Some t /\ ty_fine t) (n_regs nd)
    | _ => True
    end.

  Lemma bases_fine : forall l, Forall var_fine l -> Forall base_fine (map v_base l).
  Proof. intros l H. apply Forall_map. eapply Forall_impl; [|exact H]. intros v (_ & B & _). exact B. Qed.

  Lemma tc_node_fine : forall gl fn o nd nd' gens, result (tc_node gl fn o nd) = Some (nd', gens) -> fine (DNode o nd) ->
    (forall x b, lookup x gl = Some b -> base_fine b) -> (forall f g, lookup f fn = Some g -> sig_fine g) ->
    fine (DNode o nd') /\ checked (DNode o nd').
  Proof.
    intros gl fn o nd nd' gens H (A & B & C & D & E & G) Gl Fn. unfold tc_node in H.
    apply obind_some in H. destruct H as (u1 & _ & H). apply obind_some in H. destruct H as (u2 & _ & H).
    apply obind_some in H. destruct H as ((ok, vars) & X3 & H). apply obind_some in H. destruct H as (u3 & X4 & H).
    destruct ok; [|discriminate]. apply tc_vars_ok in X3. destruct X3 as (_ & _ & V & _). rewrite app_nil_r in V.
    apply obind_some in H. destruct H as (bl & Xb & H). apply obind_some in H. destruct H as (so & Xs & H).
    apply obind_some in H. destruct H as (s & X6 & H). apply need_some in X6. subst so. inversion H; subst nd' gens. clear H.
    split.
    - cbn [fine n_name n_blocks n_stmts all_vars n_inputs n_outputs n_locals]. repeat split; auto. unfold all_read in *. cbn [n_stmts n_regs]. rewrite map_length, seq_length. exact G.
    - assert (Cf : ctx_fine (mkTctx gl vars bl)).
      { split; cbn [c_vars c_global c_blocks]; auto.
        - intros x b L. apply lookup_found in L. rewrite V, <- in_rev in L. apply in_map_iff in L. destruct L as (v & Ev & J). inversion Ev; subst.
          rewrite Forall_forall in B. apply B in J. apply J.
        - intros g J. apply tc_blocks_from in Xb. destruct Xb as [_ Xb]. destruct (Xb _ J) as (f & _ & L). apply Fn in L. exact L. }
      pose proof (tc_stmts_fine _ Cf _ _ _ Xs) as Rf. assert (R0 : regs_fine tyst0) by (intros ? ? []). specialize (Rf R0).
      apply stmts_record in Xs. destruct Xs as [Rr _]. cbn [tyst0 y_regs map] in Rr. rewrite app_nil_r in Rr. unfold all_read in G. rewrite G in Rr.
      cbn [checked n_regs]. apply Forall_forall. intros r J. apply in_map_iff in J. destruct J as (id & <- & J).
      apply (Permutation_in _ (Permutation_sym Rr)) in J. apply in_map_iff in J. destruct J as ((id', t) & Ei & J). cbn in Ei. subst id'.
      exists t. split; [|eapply Rf; eauto]. apply lookup_nat_in; auto. eapply perm_nodup_seq; eauto.
  Qed.

  Lemma tc_decls_fine : forall l gl fn l', result (tc_decls gl fn l) = Some (true, l') -> Forall fine l ->
    (forall x b, lookup x gl = Some b -> base_fine b) -> (forall f g, lookup f fn = Some g -> sig_fine g) ->
    Forall (fun d => fine d /\ checked d) l'.
  Proof.
    induction l as [|d l IH]; intros gl fn l' H F Gl Fn; cbn [tc_decls] in H; [inversion H; subst; constructor|].
    apply obind_some in H. destruct H as (r & E & H). apply attempt_some in E. apply obind_some in H. destruct H as ((gl', fn') & E1 & H).
    apply obind_some in H. destruct H as ((ok, ds) & E2 & H). injection H as H1 H2.
    destruct r as [d'|]; [|discriminate H1]. destruct ok; [|discriminate H1]. subst l'. clear H1. inversion F as [|? ? Fd Fl]; subst. constructor.
    - destruct d as [o x t e|o nd|o x t|o x i o'].
      + apply obind_some in E. destruct E as (u & E & X). inversion X; subst. split; auto. cbn.
        apply tc_const_typed in E. destruct E as [A B]. split; auto. intros y n O. destruct (typed_var _ _ _ _ _ B O) as (b & Z). discriminate.
      + apply obind_some in E. destruct E as ((nd', g) & E & X). inversion X; subst. eapply tc_node_fine; eauto.
      + inversion E; subst. split; auto. exact I.
      + apply obind_some in E. destruct E as (u & E & X). inversion X; subst. split; auto. exact I.
    - eapply IH; eauto; destruct d as [o x t e|o nd|o x t|o x i o']; cbn [fine] in Fd;
        (match type of E1 with context [match lookup ?y ?m with _ => _ end] => destruct (lookup y m) end; [discriminate E1|]); inversion E1; subst; auto.
      1,2: intros y b L; cbn [lookup] in L; destruct (String.eqb y x); [inversion L; subst; tauto|eauto].
      + intros f g L. cbn [lookup] in L. destruct (String.eqb f (n_name nd)); [|eauto]. inversion L; subst. unfold sig_fine, node_sig. cbn.
        apply bases_fine. destruct Fd as (_ & Fd & _). unfold all_vars in Fd. rewrite !Forall_app in Fd. tauto.
      + intros f g L. cbn [lookup] in L. destruct (String.eqb f x); [|eauto]. inversion L; subst. unfold sig_fine, ext_sig. cbn.
        apply bases_fine. destruct Fd as (_ & Fd & _). rewrite Forall_app in Fd. tauto.
  Qed.

  (** *** Clocks *)
  Definition clk_fine (k : clk) : Prop := match k with KOn x | KOff x => P x | _ => True end.
  Definition kst_fine (s : kst) : Prop := forall id e, In (id, e) s -> clean e.
  Lemma refine_fine : forall a b k, result (refine a b) = Some k -> clk_fine a -> clk_fine b -> clk_fine k.
  Proof.
    intros a b k H A B. destruct a, b; cbn in H; try discriminate; try (inversion H; subst; auto; fail);
      destruct (String.eqb x x0); inversion H; subst; auto.
  Qed.
  Lemma as_clock_fine : forall e p k, result (as_clock e p) = Some k -> clean e -> clk_fine k.
  Proof.
    intros e p k H C. destruct e; cbn in H; try discriminate. inversion H; subst. assert (L : leaf (EVar x depth)) by (apply C; constructor).
    destruct p; exact L.
  Qed.
  Lemma forge_fine : forall k, clk_fine k -> clean (forge_as_expr k).
  Proof.
    intros [| |x|x] H; cbn.
    - kids.
    - kids.
    - apply clean_intro; [exact H|intros ? []].
    - apply clean_intro; [exact I|]. intros c [<-|[]]. apply clean_intro; [exact H|intros ? []].
  Qed.

  Lemma kc_fine : forall local, (forall x c, lookup x local = Some c -> clock_fine c) ->
    forall e s k s', result (kc local e s) = Some (k, s') -> clean e -> kst_fine s -> clk_fine k /\ kst_fine s'.
  Proof.
    intros local Lf. pose (R := fun e => forall s k s', result (kc local e s) = Some (k, s') -> clean e -> kst_fine s -> clk_fine k /\ kst_fine s').
    intros e. change (R e). induction e using expr_ind'; intros s k s' E C F; try rewrite kc_tuple in E; cbn [kc] in E;
      (assert (Ch : forall c, In c (children _) -> clean c) by (intros c J; eapply clean_child; [exact C|exact J])); cbn [children] in Ch.
    - inversion E; subst. cbn; auto.
    - destruct (lookup x local) as [c|] eqn:L; inversion E; subst. split; auto. apply Lf in L. destruct c as [[] y| |]; cbn; auto.
    - inversion E; subst. cbn; auto.
    - destruct l as [|e0 l]; [inversion E; subst; cbn; auto|].
      apply obind_some in E. destruct E as ((g, s1) & E1 & E). apply obind_some in E. destruct E as (s2 & E2 & E). inversion E; subst. clear E.
      assert (H0 : R e0) by (inversion H; auto). destruct (H0 _ _ _ E1) as [A1 B1]; [apply Ch; cbn; auto|auto|]. split; auto.
      clear E1. revert s1 E2 B1 Ch. clear - H. revert H. generalize (e0 :: l) as ls. clear. intros ls H. induction H as [|e ls He _ IH]; intros s1 E2 B1 Ch; cbn [kcs] in E2; [inversion E2; subst; auto|].
      apply obind_some in E2. destruct E2 as ((k1, s3) & E3 & E2). apply obind_some in E2. destruct E2 as (u & _ & E2).
      destruct (He _ _ _ E3) as [A3 B3]; [apply Ch; cbn; auto|auto|]. eapply IH; eauto. intros; apply Ch; cbn; auto.
    - apply obind_some in E. destruct E as ((k1, s1) & E1 & E). apply obind_some in E. destruct E as (u & _ & E). inversion E; subst. apply (IHe _ _ _ E1); auto. apply Ch; cbn; auto.
    - apply (IHe s k s'); auto. apply Ch; cbn; auto.
    - apply obind_some in E. destruct E as (l & E1 & E). apply attempt_some in E1. apply obind_some in E. destruct E as (r & E2 & E). apply attempt_some in E2.
      apply obind_some in E. destruct E as ((lk, ls) & N1 & E). apply need_some in N1. apply obind_some in E. destruct E as ((rk, rs) & N2 & E). apply need_some in N2.
      rewrite N1 in E1, E2. rewrite N2 in E2. clear N1 N2. cbn [knext] in E2. apply obind_some in E. destruct E as (k' & E3 & E). inversion E; subst.
      destruct (IHe1 _ _ _ E1) as [A1 B1]; [apply Ch; cbn; auto|auto|]. destruct (IHe2 _ _ _ E2) as [A2 B2]; [apply Ch; cbn; auto|auto|]. split; auto. eapply refine_fine; eauto.
    - apply (IHe s k s'); auto. apply Ch; cbn; auto.
    - apply obind_some in E. destruct E as (l & E1 & E). apply attempt_some in E1. apply obind_some in E. destruct E as (r & E2 & E). apply attempt_some in E2.
      apply obind_some in E. destruct E as ((lk, ls) & N1 & E). apply need_some in N1. apply obind_some in E. destruct E as ((rk, rs) & N2 & E). apply need_some in N2.
      rewrite N1 in E1, E2. rewrite N2 in E2. clear N1 N2. cbn [knext] in E2. apply obind_some in E. destruct E as (k' & E3 & E). inversion E; subst.
      destruct (IHe1 _ _ _ E1) as [A1 B1]; [apply Ch; cbn; auto|auto|]. destruct (IHe2 _ _ _ E2) as [A2 B2]; [apply Ch; cbn; auto|auto|]. split; auto. eapply refine_fine; eauto.
    - apply obind_some in E. destruct E as ((i, s1) & E1 & E). apply obind_some in E. destruct E as ((coc, s2) & E2 & E). apply obind_some in E. destruct E as (new & E3 & E).
      apply obind_some in E. destruct E as (u & _ & E). inversion E; subst.
      destruct (IHe1 _ _ _ E1) as [A1 B1]; [apply Ch; cbn; auto|auto|]. destruct (IHe2 _ _ _ E2) as [A2 B2]; [apply Ch; cbn; auto|auto|]. split; auto.
      eapply as_clock_fine; eauto. apply Ch; cbn; auto.
    - apply obind_some in E. destruct E as (l & E1 & E). apply attempt_some in E1. apply obind_some in E. destruct E as (r & E2 & E). apply attempt_some in E2.
      apply obind_some in E. destruct E as ((lk, ls) & N1 & E). apply need_some in N1. apply obind_some in E. destruct E as ((rk, rs) & N2 & E). apply need_some in N2.
      rewrite N1 in E1, E2. rewrite N2 in E2. clear N1 N2. cbn [knext] in E2. apply obind_some in E. destruct E as (u & _ & E). apply obind_some in E. destruct E as (u' & _ & E). inversion E; subst.
      destruct (IHe1 _ _ _ E1) as [A1 B1]; [apply Ch; cbn; auto|auto|]. destruct (IHe2 _ _ _ E2) as [A2 B2]; [apply Ch; cbn; auto|auto|]. split; auto.
    - apply obind_some in E. destruct E as ((k1, s1) & E1 & E). apply obind_some in E. destruct E as (s2 & E2 & E). inversion E; subst.
      destruct (IHe _ _ _ E1) as [A1 B1]; [apply Ch, in_app_iff; cbn; auto|auto|]. split; auto.
      assert (B2 : kst_fine s2).
      { destruct i as [i|]; [|inversion E2; subst; auto]. apply obind_some in E2. destruct E2 as ((k3, s3) & E3 & E2). apply obind_some in E2. destruct E2 as (u & _ & E2).
        inversion E2; subst. cbn in H. destruct (H _ _ _ E3); auto. apply Ch; cbn; auto. }
      intros id' c [J|J]; [inversion J; subst; apply forge_fine; auto|eapply B2; eauto].
    - apply obind_some in E. destruct E as (l & E1 & E). apply attempt_some in E1. apply obind_some in E. destruct E as (r & E2 & E). apply attempt_some in E2.
      apply obind_some in E. destruct E as ((rk, rs) & N2 & E). apply need_some in N2. apply obind_some in E. destruct E as ((lk, ls) & N1 & E). apply need_some in N1.
      rewrite N1 in E1, E2. rewrite N2 in E2. clear N1 N2. cbn [knext] in E2. apply obind_some in E. destruct E as (u & _ & E). inversion E; subst.
      destruct (IHe1 _ _ _ E1) as [A1 B1]; [apply Ch; cbn; auto|auto|]. destruct (IHe2 _ _ _ E2) as [A2 B2]; [apply Ch; cbn; auto|auto|]. split; auto.
    - apply obind_some in E. destruct E as (c & E1 & E). apply attempt_some in E1. apply obind_some in E. destruct E as (y & E2 & E). apply attempt_some in E2.
      apply obind_some in E. destruct E as (n & E3 & E). apply attempt_some in E3.
      apply obind_some in E. destruct E as ((ck, cs) & N1 & E). apply need_some in N1. apply obind_some in E. destruct E as ((yk, ys) & N2 & E). apply need_some in N2.
      apply obind_some in E. destruct E as ((nk, ns) & N3 & E). apply need_some in N3. rewrite N1 in E1, E2, E3. rewrite N2 in E2, E3. rewrite N3 in E3. clear N1 N2 N3. cbn [knext] in *.
      apply obind_some in E. destruct E as (k1 & E4 & E). apply obind_some in E. destruct E as (k2 & E5 & E). inversion E; subst.
      destruct (IHe1 _ _ _ E1) as [A1 B1]; [apply Ch; cbn; auto|auto|]. destruct (IHe2 _ _ _ E2) as [A2 B2]; [apply Ch; cbn; auto|auto|].
      destruct (IHe3 _ _ _ E3) as [A3 B3]; [apply Ch; cbn; auto|auto|]. split; auto. eapply refine_fine; [exact E5| |auto]. eapply refine_fine; eauto.
    - apply obind_some in E. destruct E as (on & _ & E). apply obind_some in E. destruct E as (off & _ & E).
      apply obind_some in E. destruct E as (c & E1 & E). apply attempt_some in E1. apply obind_some in E. destruct E as (y & E2 & E). apply attempt_some in E2.
      apply obind_some in E. destruct E as (n & E3 & E). apply attempt_some in E3.
      apply obind_some in E. destruct E as ((ck, cs) & N1 & E). apply need_some in N1. apply obind_some in E. destruct E as ((yk, ys) & N2 & E). apply need_some in N2.
      apply obind_some in E. destruct E as ((nk, ns) & N3 & E). apply need_some in N3. rewrite N1 in E1, E2, E3. rewrite N2 in E2, E3. rewrite N3 in E3. clear N1 N2 N3. cbn [knext] in *.
      apply obind_some in E. destruct E as (u1 & _ & E). apply obind_some in E. destruct E as (u2 & _ & E). apply obind_some in E. destruct E as (u3 & _ & E).
      apply obind_some in E. destruct E as (u4 & _ & E). inversion E; subst.
      destruct (IHe1 _ _ _ E1) as [A1 B1]; [apply Ch; cbn; auto|auto|]. destruct (IHe2 _ _ _ E2) as [A2 B2]; [apply Ch; cbn; auto|auto|].
      destruct (IHe3 _ _ _ E3) as [A3 B3]; [apply Ch; cbn; auto|auto|]. split; auto.
    - apply (IHe s k s'); auto. apply Ch; cbn; auto.
  Qed.

  Lemma kc_stmts_fine : forall local, (forall x c, lookup x local = Some c -> clock_fine c) ->
    forall l s s', result (kc_stmts local l s) = Some (Some s') -> Forall stmt_fine l -> kst_fine s -> kst_fine s'.
  Proof.
    intros local Lf. induction l as [|i l IH]; intros s s' H C F; cbn [kc_stmts] in H; [inversion H; subst; auto|].
    apply obind_some in H. destruct H as (r & E & H). apply attempt_some in E.
    destruct r as [s1|]; [|apply obind_some in H; destruct H as (? & _ & H); discriminate]. inversion C; subst. eapply IH; eauto. clear H IH.
    destruct i as [t e|e|id v c|id e]; cbn [kc_stmt stmt_fine] in *; try (inversion E; subst; exact F).
    - apply obind_some in E. destruct E as (k & _ & E). apply obind_some in E. destruct E as ((r, s2) & E1 & E).
      assert (s1 = s2) by (destruct t as [x|[|t l0]]; try (apply obind_some in E; destruct E as (u & _ & E)); inversion E; auto). subst s2.
      eapply kc_fine; eauto. tauto.
    - apply obind_some in E. destruct E as ((r, s2) & E1 & E). apply obind_some in E. destruct E as (u & _ & E). inversion E; subst. eapply kc_fine; eauto.
  Qed.

  (** The clocks of the registers are known. *)
  Definition clocked (d : decl) : Prop :=
    match d with DNode _ nd => forall id v c, In (SInit id v c) (n_stmts nd) -> c <> None | _ => True end.

  Lemma kc_decl_fine : forall d d', result (kc_decl d) = Some d' -> fine d -> checked d -> fine d' /\ checked d' /\ clocked d'.
  Proof.
    intros d d' H F C. destruct d as [o x t e|o nd|o x t|o x i o']; cbn [kc_decl] in H.
    - inversion H; subst. split; [exact F|split; [exact C|exact I]].
    - apply obind_some in H. destruct H as (nd' & H & X). inversion X; subst d'. clear X. unfold kc_node in H.
      apply obind_some in H. destruct H as (u & _ & H). apply obind_some in H. destruct H as (ko & Ek & H). apply obind_some in H. destruct H as (ks & Nk & H).
      apply need_some in Nk. subst ko. apply obind_some in H. destruct H as (stmts & Ef & H). inversion H; subst nd'. clear H. apply omap_some in Ef.
      destruct F as (A & B & Cg & D & E & G). cbn [fine checked clocked] in *.
      assert (Kf : kst_fine ks).
      { eapply kc_stmts_fine; [|exact Ek|exact E|intros ? ? []]. intros x c L. apply lookup_found in L. rewrite <- in_rev in L. apply in_map_iff in L.
        destruct L as (v & Ev & J). inversion Ev; subst. rewrite Forall_forall in B. apply B in J. apply J. }
      assert (Fi : forall i i', In i (n_stmts nd) -> result (fill_clock ks i) = Some i' -> stmt_fine i' /\ sourced i' = sourced i /\ (sourced i = true -> i' = i) /\ match i' with SInit _ _ c => c <> None | _ => True end).
      { intros i i' J X. rewrite Forall_forall in E. apply E in J. destruct i as [t e|e|id v c|id e]; cbn [fill_clock] in X; try (inversion X; subst; split; [exact J|split; [reflexivity|split; [auto|exact I]]]; fail).
        destruct (lookup_nat id ks) as [c'|] eqn:L; inversion X; subst. split; [|split; [auto|split; [discriminate|discriminate]]].
        split; [apply J|]. cbn. assert (J' : In (id, c') ks).
        { clear -L. induction ks as [|[a b] ks IH]; cbn in L; [discriminate|]. destruct (Nat.eqb_spec id a); [inversion L; subst; cbn; auto|cbn; auto]. }
        eapply Kf; eauto. }
      assert (Es : filter sourced stmts = filter sourced (n_stmts nd)).
      { clear - Ef Fi. induction Ef as [|i i' l l' X _ IH]; cbn; auto. destruct (Fi i i') as (_ & S1 & S2 & _); [cbn; auto|auto|].
        rewrite S1, IH by (intros; apply Fi; cbn; auto). destruct (sourced i); auto. rewrite S2; auto. }
      split; [|split; auto].
      + cbn [n_name n_blocks n_stmts all_vars n_inputs n_outputs n_locals]. repeat split; auto.
        * apply Forall_forall. intros i' J. destruct (forall2_in_r _ _ _ Ef _ J) as (i & Ji & X). apply (Fi _ _ Ji X).
        * unfold all_read in *. cbn [n_stmts n_regs]. rewrite Es. exact G.
      + cbn [n_stmts]. intros id v c J. destruct (forall2_in_r _ _ _ Ef _ J) as (i & Ji & X). apply (Fi _ _ Ji X).
    - inversion H; subst. split; [exact F|split; [exact C|exact I]].
    - apply obind_some in H. destruct H as (u & _ & H). inversion H; subst. split; [exact F|split; [exact C|exact I]].
  Qed.

  Lemma pos_decl_fine : forall d d', result (pos_decl d) = Some d' -> fine d -> checked d -> clocked d -> fine d' /\ checked d' /\ clocked d'.
  Proof.
    intros d d' H F C K. destruct d; cbn [pos_decl] in H; try (inversion H; subst; auto; fail).
    apply obind_some in H. destruct H as (nd' & H & X). inversion X; subst d'. apply pos_node_all in H. destruct H as (m & _ & ->).
    split; [|split; auto]. destruct F as (A & B & Cg & D & E & G). cbn [fine n_name n_blocks n_stmts all_vars n_inputs n_outputs n_locals] in *.
    repeat split; auto. assert (Sd : forall l, Forall var_fine l -> Forall var_fine (map (set_depth m) l)).
    { intros l Hl. apply Forall_map. eapply Forall_impl; [|exact Hl]. intros v Hv. exact Hv. }
    unfold all_vars in *. rewrite !Forall_app in *. cbn. repeat split; apply Sd; apply B.
  Qed.

  Theorem compiled_fine : forall p l, result (pipeline p) = Some l -> (forall a, In a p -> source_fine a) ->
    forall d, In d l -> fine d /\ checked d /\ clocked d.
  Proof.
    intros p l H S. destruct (pipeline_typecheck _ _ H) as (l0 & l1 & l1' & l2 & l3 & F0 & F1 & Pm & _ & F2 & F3 & F4).
    assert (A1 : Forall fine l1').
    { apply Forall_forall. intros d J. apply (Permutation_in _ Pm) in J. destruct (forall2_in_r _ _ _ F1 _ J) as (d0 & J0 & D0).
      destruct (forall2_in_r _ _ _ F0 _ J0) as (a & Ja & T). eapply causality_fine; eauto. eapply tr_fine; eauto. }
    assert (A2 : Forall (fun d => fine d /\ checked d) l2) by (eapply tc_decls_fine; eauto; discriminate).
    intros d J. destruct (forall2_in_r _ _ _ F4 _ J) as (d3 & J3 & X3). destruct (forall2_in_r _ _ _ F3 _ J3) as (d2 & J2 & X2).
    rewrite Forall_forall in A2. destruct (A2 _ J2) as [B2 C2]. destruct (kc_decl_fine _ _ X2 B2 C2) as (B3 & C3 & D3). eapply pos_decl_fine; eauto.
  Qed.
End Words.
