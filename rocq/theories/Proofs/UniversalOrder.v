(** The statements of a compiled node, the clocks of its registers included, are
    in order. *)
From Coq Require Import String List ZArith Bool Arith Lia Permutation.
From Verif Require Import Model.Base Model.Scalar Model.Value Model.Ast Model.Errors Model.Interp Model.Options Model.Surface Model.Translate
  Model.Graph Model.Causality Model.Typecheck Model.Clockcheck Model.Positivity
  Spec.GraphSpec Spec.StepSpec Spec.CausalitySpec Spec.CoreSem Spec.TranslateSpec Spec.OrderSpec Spec.ClockSpec
  Proofs.AstInd Proofs.OutBasics Proofs.CoreProofs Proofs.CoreNode
  Proofs.GraphProofs Proofs.CausalityProofs Proofs.TranslateStruct Proofs.NodeWf Proofs.UnitOrder Proofs.Depths.
Import ListNotations.

(** ** The translation with registers *)
(** No operator of the other mode, and no delayed variable. *)
Fixpoint uexp (e : expr) : bool :=
  match e with
  | ELit _ | EGlobal _ => true
  | EVar _ d => d =? 0
  | ETuple l => forallb uexp l
  | EPre _ | ELater _ _ _ => false
  | EParen e | EUn _ e | ESub _ _ e => uexp e
  | EBin _ a b | ECmp _ a b | EClock _ a b | EFlip _ a b => uexp a && uexp b
  | EIf a b c | EMerge a b c => uexp a && uexp b && uexp c
  | EFetch _ i n => (match i with Some i => uexp i | None => true end) && uexp n
  end.

(** Every register is updated by a statement placed before those which read or
    initialise it. *)
Definition uordered (l : list stmt) : Prop := forall l1 s l2, l = l1 ++ s :: l2 ->
  Forall (fun e => uexp e = true) (stmt_exprs s) /\
  (forall id i n, In (id, (i, n)) (flat_map reads_of (stmt_exprs s)) -> In (SUpdate id n) l1) /\
  (forall id v c, s = SInit id v c -> exists n, In (SUpdate id n) l1).

Lemma uordered_snoc : forall l s, uordered l ->
  Forall (fun e => uexp e = true) (stmt_exprs s) ->
  (forall id i n, In (id, (i, n)) (flat_map reads_of (stmt_exprs s)) -> In (SUpdate id n) l) ->
  (forall id v c, s = SInit id v c -> exists n, In (SUpdate id n) l) -> uordered (l ++ [s]).
Proof.
  intros l s O A B C l1 s' l2 E. destruct l2 as [|x l2 _] using rev_ind.
  - apply app_inj_tail in E. destruct E as [<- <-]. auto.
  - rewrite app_comm_cons, app_assoc in E. apply app_inj_tail in E. destruct E as [E _]. eapply O; eauto.
Qed.

Definition grown (s s' : tst) : Prop := (exists st, t_stmts s' = t_stmts s ++ st) /\ (uordered (t_stmts s) -> uordered (t_stmts s')).
Definition placed (s : tst) (e : expr) : Prop := uexp e = true /\ forall id i n, In (id, (i, n)) (reads_of e) -> In (SUpdate id n) (t_stmts s).

Lemma grown_refl : forall s, grown s s.
Proof. intros s. split; auto. exists []. rewrite app_nil_r. auto. Qed.
Lemma grown_trans : forall a b c, grown a b -> grown b c -> grown a c.
Proof. intros a b c [(x & A) A'] [(y & B) B']. split; auto. exists (x ++ y). rewrite B, A, app_assoc. auto. Qed.
Lemma placed_grown : forall s s' e, grown s s' -> placed s e -> placed s' e.
Proof. intros s s' e [(st & E) _] [A B]. split; auto. intros id i n I. rewrite E. apply in_app_iff. left. eauto. Qed.

Section Tr.
  Variable f : sexpr -> nat -> tst -> out (expr * tst).
  Definition uni (e : sexpr) : Prop := forall s r s', result (f e 0 s) = Some (r, s') -> grown s s' /\ placed s' r.

  Lemma elems_uni : forall l, Forall uni l -> forall s r s', result (tr_elems f l 0 s) = Some (r, s') -> grown s s' /\ Forall (placed s') r.
  Proof.
    induction 1 as [|e l H _ IH]; intros s r s' E; cbn in E; inv_out; [split; auto using grown_refl|].
    apply H in E0. apply IH in E1. destruct E0 as [A B], E1 as [C D]. split; [eapply grown_trans; eauto|].
    constructor; auto. eapply placed_grown; eauto.
  Qed.

  Lemma left_uni : forall O (compose : O -> expr -> expr -> expr),
    (forall s op a b, placed s a -> placed s b -> placed s (compose op a b)) ->
    forall l, Forall (fun p => uni (snd p)) l -> forall acc s r s', placed s acc ->
    result (tr_left f compose acc l 0 s) = Some (r, s') -> grown s s' /\ placed s' r.
  Proof.
    intros O compose C. induction 1 as [|[op e] l H _ IH]; intros acc s r s' P E; cbn in E; inv_out; [split; auto using grown_refl|].
    apply H in E0. destruct E0 as [A B]. apply IH in E; [|apply C; auto; eapply placed_grown; eauto].
    destruct E. split; auto. eapply grown_trans; eauto.
  Qed.

  Lemma right_uni : forall compose,
    (forall i a b s r s', placed s a -> placed s b -> compose 0 i a b s = (r, s') -> grown s s' /\ placed s' r) ->
    forall l, Forall uni l -> forall i s r s',
    result (tr_right f (fun d _ => d) compose i l 0 s) = Some (r, s') -> grown s s' /\ match r with Some r => placed s' r | None => True end.
  Proof.
    intros compose C. induction 1 as [|e l H _ IH]; intros i s r s' E; cbn in E; inv_out; [split; auto using grown_refl|].
    apply IH in E0. apply H in E1. destruct E0 as [A B], E1 as [A' B'].
    destruct o.
    - destruct (compose 0 i e0 e1 t0) as [x y] eqn:Ec. inv_out. apply C in Ec; auto; [|eapply placed_grown; eauto].
      destruct Ec. split; auto. eapply grown_trans; eauto. eapply grown_trans; eauto.
    - inv_out. split; auto. eapply grown_trans; eauto.
  Qed.
End Tr.

Lemma placed_paren : forall s l t, Forall (placed s) l -> placed s (paren l t).
Proof.
  intros s l t F. assert (T : placed s (ETuple l)).
  { split.
    - cbn. apply forallb_forall. intros e I. rewrite Forall_forall in F. apply F; auto.
    - cbn. intros id i n I. apply in_flat_map in I. destruct I as (e & I & J). rewrite Forall_forall in F. eapply F; eauto. }
  unfold paren. destruct l as [|e [|]]; try destruct t; auto. inversion F; subst. destruct H1. split; auto.
Qed.

Ltac both := match goal with
  | A : placed _ _, B : placed _ _, C : placed _ _ |- placed _ _ => destruct A as [? A], B as [? B], C as [? C]
  | A : placed _ _, B : placed _ _ |- placed _ _ => destruct A as [? A], B as [? B]
  | A : placed _ _ |- placed _ _ => destruct A as [? A] end;
  split; cbn; [repeat (apply andb_true_intro; split); auto|
    let J := fresh in intros ? ? ? J; rewrite ?in_app_iff in J; repeat destruct J as [J|J]; eauto].

Lemma grown_fetch : forall s i n, (match i with Some i => placed s i | None => True end) -> placed s n ->
  forall id, let s' := add_stmt (SInit id i None) (add_stmt (SUpdate id n) s) in grown s s' /\ placed s' (EFetch id i n).
Proof.
  intros s i n Pi [Un Pn] id s'. split; [split|].
  - exists [SUpdate id n; SInit id i None]. cbn. rewrite <- app_assoc. auto.
  - intros O. cbn. apply uordered_snoc; [apply uordered_snoc; auto|..].
    + cbn. constructor; auto.
    + cbn. rewrite app_nil_r. exact Pn.
    + discriminate.
    + destruct i as [i|]; cbn; [|constructor]. destruct Pi. constructor; auto.
    + cbn. intros id' i' n' I. apply in_app_iff. left. destruct i as [i|]; cbn in I; [|destruct I]. rewrite app_nil_r in I.
      destruct Pi as [_ Pi]. eauto.
    + intros id' v c E. inversion E; subst. exists n. apply in_app_iff. cbn. auto.
  - split.
    + cbn. rewrite Un. destruct i as [i|]; auto. destruct Pi as [-> _]. auto.
    + cbn. intros id' i' n' [I|[]]. inversion I; subst. rewrite !in_app_iff. cbn. auto.
Qed.

Lemma tr_uni : forall locals e, uni (tr true locals) e.
Proof.
  intros locals e. induction e using sexpr_ind'; intros s r s' E; cbn [tr] in E.
  - inv_out. split; [apply grown_refl|]. destruct l; unfold tr_lit in E0; try destruct (in_i64 _); inv_out; split; cbn; auto; intros ? ? ? [].
  - inv_out. split; [apply grown_refl|]. unfold tr_var. destruct (existsb _ _); split; cbn; auto; intros ? ? ? [].
  - inv_out. eapply elems_uni in E0; eauto. destruct E0. split; auto using placed_paren.
  - inv_out. eapply elems_uni in E0; eauto. destruct E0 as [A B]. apply (placed_paren _ _ b) in B. split; [exact A|].
    destruct B as [B1 B2]. split; cbn; auto.
  - inv_out. apply IHe in E0. destruct E0 as [A B]. split; auto.
  - inv_out. apply IHe in E0. destruct E0 as [A B]. split; auto.
  - inv_out. apply IHe in E0. destruct E0 as [A B]. destruct (grown_fetch t None e0 I B (t_regs s)) as [C D]. split; auto.
    eapply grown_trans; eauto. 
  - inv_out. apply IHe1 in E0. apply IHe2 in E1. apply IHe3 in E2. destruct E0 as [A A'], E1 as [B B'], E2 as [C C'].
    split; [eapply grown_trans; eauto; eapply grown_trans; eauto|].
    assert (P1 : placed s' e) by exact (placed_grown _ _ _ (grown_trans _ _ _ B C) A'). assert (P2 : placed s' e0) by exact (placed_grown _ _ _ C B').
    clear A' B'. both.
  - inv_out. apply IHe1 in E0. apply IHe2 in E1. apply IHe3 in E2. destruct E0 as [A A'], E1 as [B B'], E2 as [C C'].
    split; [eapply grown_trans; eauto; eapply grown_trans; eauto|].
    assert (P1 : placed s' e) by exact (placed_grown _ _ _ (grown_trans _ _ _ B C) A'). assert (P2 : placed s' e0) by exact (placed_grown _ _ _ C B').
    clear A' B'. both.
  - inv_out. apply IHe in E0. destruct E0 as [A B]. eapply left_uni in E; eauto; [|intros; both].
    destruct E. split; auto. eapply grown_trans; eauto.
  - inv_out. apply IHe in E0. destruct E0 as [A B]. destruct l as [|[op e1] [|[op' e2] l]]; inv_out; [split; auto|].
    inversion H; subst. cbn [snd] in *.
    match goal with X : uni _ e1 |- _ => apply X in E0 end. destruct E0 as [C D].
    split; [eapply grown_trans; eauto|]. assert (P1 : placed s' e0) by exact (placed_grown _ _ _ C B). clear B. both.
  - inv_out. apply IHe in E0. destruct E0 as [A B]. eapply left_uni in E; eauto; [|intros; both].
    destruct E. split; auto. eapply grown_trans; eauto.
  - inv_out.
    assert (Cf : forall i a b s r s', placed s a -> placed s b -> fby_registers 0 i a b s = (r, s') -> grown s s' /\ placed s' r).
    { intros i a b s0 r0 s1 Pa Pb E2. inversion E2; subst.
      apply (grown_fetch (new_reg s0) (Some a) b); auto. }
    eapply (right_uni _ fby_registers Cf) in E0; eauto. apply IHe in E1. destruct E0 as [A B], E1 as [C D].
    destruct o; cbn in E; inv_out.
    + destruct (Cf 0 e0 e1 t0 _ _ D (placed_grown _ _ _ C B) eq_refl) as [X Y]. split; auto.
      eapply grown_trans; [|exact X]. eapply grown_trans; eauto.
    + split; auto. eapply grown_trans; eauto.
  - inv_out.
    assert (Cf : forall i a b s r s', placed s a -> placed s b -> then_flips 0 i a b s = (r, s') -> grown s s' /\ placed s' r).
    { intros i a b s0 r0 s1 Pa Pb E2. inversion E2; subst. split; [apply (grown_refl s0)|].
      assert (X : placed s0 (EFlip (t_flips s0) a b)) by both. exact X. }
    eapply (right_uni _ then_flips Cf) in E0; eauto. apply IHe in E1. destruct E0 as [A B], E1 as [C D].
    destruct o; cbn in E; inv_out.
    + destruct (Cf 0 e0 e1 t0 _ _ D (placed_grown _ _ _ C B) eq_refl) as [X Y]. split; auto.
      eapply grown_trans; [|exact X]. eapply grown_trans; eauto.
    + split; auto. eapply grown_trans; eauto.
Qed.

Lemma tr_node_uordered : forall o sn nd, result (tr_node o sn) = Some nd -> o_universal o = true -> uordered (n_stmts nd).
Proof.
  intros o sn nd H U. unfold tr_node in H. rewrite U in H. inv_out. cbn [n_stmts].
  assert (G : forall locals l s s', result (tr_stmts true locals l s) = Some s' -> uordered (t_stmts s) -> uordered (t_stmts s')).
  { induction l as [|i l IH]; intros s s' R O; cbn [tr_stmts] in R; inv_out; auto. eapply IH; eauto.
    destruct i; cbn [tr_stmt] in E0; inv_out; apply tr_uni in E1; destruct E1 as [[_ A] [B C]]; cbn; apply uordered_snoc; auto;
      cbn; rewrite ?app_nil_r; auto; discriminate. }
  eapply G; eauto. intros [|? ?] ? ? X; discriminate.
Qed.

(** ** Clocks and depths, without the state of the passes *)
Definition comp (a b : clk) : Prop := a = KAdaptative \/ b = KAdaptative \/ a = b.
Definition ident_clk (a b : clk) : Prop := result (clk_identical a b) = Some tt.
Definition join (a b : clk) : clk := match a with KAdaptative => b | k => k end.

Lemma refine_comp : forall a b k, result (refine a b) = Some k -> comp a b /\ k = join a b.
Proof.
  unfold comp. intros [| |x|x] [| |y|y] k H; cbn in H; try discriminate; try (inversion H; subst; cbn; auto; fail);
    destruct (String.eqb_spec x y); subst; cbn in H; try discriminate; inversion H; auto.
Qed.

Section Clocks.
  Variable local : list (ident * clock).
  Definition kvar (x : ident) : clk := match lookup x local with Some c => into_clk c | None => KAdaptative end.

  Fixpoint kof (e : expr) : clk :=
    match e with
    | ELit _ | EGlobal _ => KAdaptative
    | EVar x _ => kvar x
    | EParen e | EPre e | EUn _ e | ESub _ _ e => kof e
    | EBin _ a b | ECmp _ a b => join (kof a) (kof b)
    | ELater _ a _ => kof a
    | EFlip _ _ b => kof b
    | EClock p _ act => match act with EVar x _ => if p then KOn x else KOff x | _ => KAdaptative end
    | ETuple l => match l with [] => KAdaptative | e :: _ => kof e end
    | EIf c a b => join (join (kof c) (kof a)) (kof b)
    | EMerge c _ _ => kof c
    | EFetch _ _ n => kof n
    end.

  Fixpoint kok (e : expr) : Prop :=
    match e with
    | ELit _ | EGlobal _ => True
    | EVar x _ => lookup x local <> None
    | EParen e | EPre e | EUn _ e | ESub _ _ e => kok e
    | EBin _ a b | ECmp _ a b => kok a /\ kok b /\ comp (kof a) (kof b)
    | ELater _ a b => kok a /\ kok b
    | EFlip _ a b => kok a /\ kok b /\ ident_clk (kof b) (kof a)
    | EClock _ a b => kok a /\ kok b /\ comp (kof a) (kof b) /\ exists x d, b = EVar x d
    | ETuple l => fold_right and True (map kok l) /\
        match l with [] => True | e0 :: _ => Forall (fun e => ident_clk (kof e0) (kof e)) l end
    | EIf c a b => kok c /\ kok a /\ kok b /\ comp (kof c) (kof a) /\ comp (join (kof c) (kof a)) (kof b)
    | EMerge c a b => kok c /\ kok a /\ kok b /\
        exists x d, c = EVar x d /\ comp (kof a) (KOn x) /\ comp (kof b) (KOff x)
    | EFetch _ i n => match i with Some i => kok i /\ ident_clk (kof n) (kof i) | None => True end /\ kok n
    end.

  Lemma kcs_kok : forall g l, Forall (fun e => forall s k s', result (kc local e s) = Some (k, s') -> k = kof e /\ kok e) l ->
    forall s s', result (kcs local g l s) = Some s' ->
    fold_right and True (map kok l) /\ Forall (fun e => ident_clk g (kof e)) l.
  Proof.
    induction 1 as [|e l H _ IH]; intros s s' E; cbn [kcs] in E; [cbn; auto|].
    apply obind_some in E. destruct E as ((k, s1) & E & E1). apply obind_some in E1. destruct E1 as ([] & E1 & E2).
    apply H in E. destruct E as [-> K]. apply IH in E2. destruct E2. cbn. auto.
  Qed.

  Ltac un := match goal with H : result (clk_identical _ _) = Some ?u |- _ => destruct u end; assumption.
  Ltac kk := repeat match goal with A : result (kc local ?e _) = Some _, B : forall s k s', result (kc local ?e s) = Some _ -> _ |- _ =>
    apply B in A; destruct A as [-> ?] end.
  Lemma kc_kok : forall e s k s', result (kc local e s) = Some (k, s') -> k = kof e /\ kok e.
  Proof.
    intros e. induction e using expr_ind'; intros s0 k0 s1 E; try rewrite kc_tuple in E; cbn [kc] in E; cbn [kof kok].
    - inv_out. auto.
    - unfold kvar. destruct (lookup x local); inv_out. split; [auto|discriminate].
    - inv_out. auto.
    - destruct l as [|e l]; [inv_out; cbn; auto|]. apply obind_some in E. destruct E as ((g, s2) & E & E1).
      inv_out. pose proof H as H'. inversion H' as [|? ? He _]; subst. apply He in E. destruct E as [-> K].
      eapply kcs_kok in E0; eauto.
    - apply obind_some in E. destruct E as ((g, s2) & E & E1). inv_out. eauto.
    - eauto.
    - inv_out. kk.
      match goal with H : result (refine _ _) = _ |- _ => apply refine_comp in H; destruct H as [? ->] end. auto.
    - eauto.
    - inv_out. kk.
      match goal with H : result (refine _ _) = _ |- _ => apply refine_comp in H; destruct H as [? ->] end. auto.
    - inv_out. kk.
      destruct e2; cbn in *; try discriminate. match goal with H : result (refine _ _) = _ |- _ => apply refine_comp in H; destruct H as [? _] end.
      inv_out. split; auto. repeat split; auto. eauto.
    - inv_out. kk. auto.
    - apply obind_some in E. destruct E as ((g, s2) & E & E1). apply IHe in E. destruct E as [-> K].
      destruct i as [i|]; inv_out; auto. split; auto. split; auto.
      match goal with A : result (kc local i _) = _ |- _ => apply H in A; destruct A as [-> ?] end. split; auto. red. un.
    - inv_out. kk. split; auto. repeat split; auto.
      red. un.
    - inv_out. kk.
      repeat match goal with H : result (refine _ _) = _ |- _ => apply refine_comp in H; destruct H as [? ->] end. repeat split; auto.
    - inv_out. kk.
      destruct e1; cbn in *; try discriminate. inv_out.
      repeat match goal with H : result (refine _ _) = _ |- _ => apply refine_comp in H; destruct H as [? _] end.
      repeat split; auto. eauto 6.
    - eauto.
  Qed.

  Lemma kok_child : forall e c, kok e -> In c (children e) -> kok c.
  Proof.
    intros e c K I. destruct e; cbn [children kok] in *; try (destruct I; fail);
      try (destruct I as [<-|[]]; auto; fail); try (destruct I as [<-|[<-|[]]]; tauto); try (destruct I as [<-|[<-|[<-|[]]]]; tauto).
    - destruct K as [K _]. clear - K I. induction l as [|a l IH]; [destruct I|]. cbn in K. destruct I as [<-|I]; tauto.
    - destruct init; cbn in I; [destruct I as [<-|[<-|[]]]|destruct I as [<-|[]]]; tauto.
  Qed.
  Lemma kok_occurs : forall x e, occurs x e -> kok e -> kok x.
  Proof. intros x e O. induction O; intros K; auto. apply IHO. eapply kok_child; eauto. Qed.

  (** Targets. *)
  Lemma ident_refl : forall k, ident_clk k k.
  Proof. intros [| |x|x]; unfold ident_clk; cbn; auto; rewrite String.eqb_refl; auto. Qed.
  Lemma ident_sym : forall a b, ident_clk a b -> ident_clk b a.
  Proof.
    unfold ident_clk. intros [| |x|x] [| |y|y]; cbn; auto; rewrite String.eqb_sym; auto.
  Qed.
  Lemma ident_trans : forall a b c, ident_clk a b -> ident_clk b c -> ident_clk a c.
  Proof.
    unfold ident_clk. intros [| |x|x] [| |y|y] [| |z|z]; cbn; try discriminate; auto;
      destruct (String.eqb_spec x y); try discriminate; subst; auto.
  Qed.

  Lemma kc_target_mult : forall t0 l k, result (kc_target local (VTMult (t0 :: l))) = Some k ->
    result (kc_target local t0) = Some k /\
    Forall (fun t => exists k', result (kc_target local t) = Some k' /\ ident_clk k k') (t0 :: l).
  Proof.
    intros t0 l k H. cbn [kc_target] in H. apply obind_some in H. destruct H as (g & E & H).
    apply obind_some in H. destruct H as ([] & F & H). cbn in H. inversion H; subst. split; auto.
    assert (X : forall l, result ((fix go (l : list vartuple) : out unit :=
           match l with
           | [] => done tt
           | t :: l => k' <~ kc_target local t;; _ <~ clk_identical k k';; go l
           end) l) = Some tt -> Forall (fun t => exists k', result (kc_target local t) = Some k' /\ ident_clk k k') l).
    { clear. induction l as [|t l IH]; intros H; [constructor|]. apply obind_some in H; destruct H as (k' & E & H);
        apply obind_some in H; destruct H as ([] & E' & H). constructor; eauto. }
    apply X. exact F.
  Qed.

  Lemma target_clock : forall t k, result (kc_target local t) = Some k -> forall x, In x (target_vars t) -> ident_clk k (kvar x).
  Proof.
    intros t. induction t using vartuple_ind'; intros k E y I.
    - cbn in I. destruct I as [<-|[]].
      cbn in E. unfold kvar. destruct (lookup x local); cbn in E; inversion E; subst; apply ident_refl.
    - destruct l as [|t0 l]; [destruct I|]. apply kc_target_mult in E. destruct E as [_ F].
      cbn in I. change (In y (flat_map target_vars (t0 :: l))) in I. apply in_flat_map in I. destruct I as (t & I & J).
      rewrite Forall_forall in F, H. destruct (F t I) as (k' & E' & Q). eapply ident_trans; [exact Q|eapply H; eauto].
  Qed.
End Clocks.

Fixpoint pok (e : expr) (cur : nat) {struct e} : Prop :=
  match e with
  | ELit _ | EGlobal _ | EVar _ _ => True
  | ETuple l => fold_right and True (map (fun e => pok e cur) l)
  | EPre e | EParen e | EUn _ e | ESub _ _ e => pok e cur
  | EBin _ a b | ECmp _ a b | EClock _ a b => pok a cur /\ pok b cur
  | EIf c a b | EMerge c a b => pok c cur /\ pok a cur /\ pok b cur
  | ELater d a b => pok a cur /\ pok b (d + 1)
  | EFlip _ a b => pok a cur /\ pok b (cur + 1)
  | EFetch _ (Some i) n => pok i cur /\ pok n cur
  | EFetch _ None n => match cur with S cur => pok n cur | 0 => False end
  end.

Lemma pos_tuple : forall l cur m, Positivity.pos (ETuple l) cur m = poss l cur m.
Proof.
  intros l cur. induction l as [|e l IH]; intros m; [reflexivity|]. cbn [poss].
  specialize (IH). cbn -[obind] in *. destruct (Positivity.pos e cur m) as [[m'|] ? ?|]; auto. cbn [obind]. rewrite IH. auto.
Qed.

Lemma pos_pok : forall e cur m m', result (Positivity.pos e cur m) = Some m' -> pok e cur.
Proof.
  intros e. induction e using expr_ind'; intros cur m m' E; try rewrite pos_tuple in E; cbn [Positivity.pos] in E; cbn [pok]; auto;
    try (inv_out; repeat split; eauto; fail); eauto.
  - revert m E. induction H as [|e l H _ IH]; intros m E; cbn [poss] in E; cbn; auto. inv_out. split; eauto.
  - destruct i as [i|]; [inv_out; repeat split; eauto|]. destruct cur; [discriminate|eauto].
Qed.

Lemma pok_child : forall e c, pok e c -> forall x, In x (children e) -> exists c', pok x c'.
Proof.
  intros e c K x I. destruct e; cbn [children pok] in *; try (destruct I; fail);
      try (destruct I as [<-|[]]; eauto; fail); try (destruct K; destruct I as [<-|[<-|[]]]; eauto; fail);
      try (destruct K as (? & ? & ?); destruct I as [<-|[<-|[<-|[]]]]; eauto; fail).
  - induction l as [|a l IH]; [destruct I|]. cbn in K. destruct K. destruct I as [<-|I]; eauto.
  - destruct init; cbn in I; [destruct K; destruct I as [<-|[<-|[]]]; eauto|destruct I as [<-|[]]]. destruct c; [destruct K|eauto].
Qed.
Lemma pok_occurs : forall x e, occurs x e -> forall c, pok e c -> exists c', pok x c'.
Proof. intros x e O. induction O; intros k K; eauto. destruct (pok_child _ _ K _ H) as (k' & K'). eauto. Qed.

(** ** Clocks that are available *)
Definition avail (A : list reference) (k : clk) : Prop :=
  match k with KOn x | KOff x => In (RLocal x) A | _ => True end.

Lemma avail_incl : forall A B k, incl A B -> avail A k -> avail B k.
Proof. intros A B [| |x|x] I H; cbn in *; auto. Qed.
Lemma avail_ident : forall A a b, ident_clk a b -> avail A a -> avail A b.
Proof.
  unfold ident_clk. intros A [| |x|x] [| |y|y] H; cbn in *; try discriminate; auto;
    destruct (String.eqb_spec x y); try discriminate; subst; auto.
Qed.
Lemma avail_join : forall A a b, avail A a -> avail A b -> avail A (join a b).
Proof. intros A [| |x|x] b; cbn; auto. Qed.
Lemma avail_parts : forall A a b, comp a b -> avail A (join a b) -> avail A a /\ avail A b.
Proof. unfold comp. intros A a b C H. destruct a, b; cbn in *; auto; destruct C as [C|[C|C]]; try discriminate; inversion C; subst; auto. Qed.

Lemma split_app : forall {X} (a b l1 : list X) s l2, a ++ b = l1 ++ s :: l2 ->
  (exists m, a = l1 ++ s :: m) \/ (exists m, b = m ++ s :: l2 /\ l1 = a ++ m).
Proof.
  intros X a. induction a as [|x a IH]; intros b l1 s l2 E.
  - right. exists l1. auto.
  - destruct l1 as [|y l1]; cbn in E; injection E; intros E1 E2; subst.
    + left. exists a. auto.
    + destruct (IH _ _ _ _ E1) as [(m & ->)|(m & -> & ->)]; [left; exists m|right; exists m]; auto.
Qed.

Section Available.
  Variable local : list (ident * clock).
  Variable objs : list stmt.
  Hypothesis plain : forall x, lookup x local <> Some CAdaptative.
  Hypothesis fetch : forall s e id i n, In s objs -> In e (stmt_exprs s) -> In (id, (i, n)) (reads_of e) ->
    In (SUpdate id n) objs /\ In (SInit id i None) objs.
  Hypothesis ordered : uordered objs.

  Definition regs (e : expr) : Prop := forall id i n, In (id, (i, n)) (reads_of e) -> In (SUpdate id n) objs /\ In (SInit id i None) objs.

  Section At.
    Variable A : list reference.
    Hypothesis HA1 : forall x, In (RLocal x) A -> avail A (kvar local x).
    Hypothesis HA2 : forall id i, In (RInitReg id) A -> In (SInit id (Some i) None) objs -> incl (expr_requires i) A.

    Lemma uexp_of : forall s e, In s objs -> In e (stmt_exprs s) -> uexp e = true.
    Proof.
      intros s e I J. apply in_split in I. destruct I as (l1 & l2 & E). destruct (ordered _ _ _ E) as [F _].
      rewrite Forall_forall in F. auto.
    Qed.
    Lemma regs_of : forall s e, In s objs -> In e (stmt_exprs s) -> regs e.
    Proof. intros s e I J id i n R. eapply fetch; eauto. Qed.

    Ltac sub := match goal with H : incl (_ ++ _) A |- _ => apply incl_app_inv in H; destruct H end.
    Ltac rg := let id := fresh in let R := fresh in intros id ? ? R; match goal with H : regs _ |- _ => apply (H id) end; cbn; rewrite ?in_app_iff; auto.

    Ltac parts := let L := fresh in intros L; match goal with V : _ -> avail A _ |- _ => specialize (V L) end;
      repeat match goal with C : comp ?a ?b, V : avail A (join ?a ?b) |- _ => destruct (avail_parts _ _ _ C V); clear C end; auto.

    (** What a present value needs has its clock. *)
    Lemma present_avail : forall e, uexp e = true -> kok local e -> pok e 0 -> regs e -> incl (expr_requires e) A -> avail A (kof local e).
    Proof.
      intros e. induction e using expr_ind'; intros U K P R I; cbn [uexp kok pok expr_requires kof] in *; try exact Logic.I;
        repeat match goal with H : _ && _ = true |- _ => apply andb_prop in H; destruct H end;
        repeat match goal with H : _ /\ _ |- _ => destruct H end; repeat sub.
      - apply Nat.eqb_eq in U. subst. apply HA1. apply I. simpl. auto.
      - destruct l as [|e l]; [exact Logic.I|]. cbn in U, H0, P, I. apply andb_prop in U. destruct U, P, H0.
        sub. inversion H as [|? ? He _]; subst. apply He; auto. rg.
      - discriminate.
      - apply IHe; auto.
      - apply avail_join; [apply IHe1|apply IHe2]; auto; rg.
      - apply IHe; auto.
      - apply avail_join; [apply IHe1|apply IHe2]; auto; rg.
      - match goal with H : exists x d, _ |- _ => destruct H as (x & d & ->) end. cbn in *.
        match goal with H : (_ =? 0) = true |- _ => apply Nat.eqb_eq in H end. subst. match goal with |- avail _ (if ?b then _ else _) => destruct b end; cbn; eauto with datatypes.
      - discriminate.
      - destruct i as [i|]; [|destruct P].
        repeat match goal with H : _ /\ _ |- _ => destruct H end.
        apply (avail_ident _ (kof local i)); [apply ident_sym; auto|].
        destruct (R id (Some i) e) as [_ J]; [simpl; auto|].
        apply H; auto.
        + eapply regs_of; eauto. simpl. auto.
        + eapply HA2; eauto. apply I. simpl. auto.
      - apply (avail_ident _ (kof local e1)); [apply ident_sym; auto|]. apply IHe1; auto. rg.
      - apply avail_join; [apply avail_join; [apply IHe1|apply IHe2]|apply IHe3]; auto; rg.
      - apply IHe1; auto; rg.
      - apply IHe; auto.
    Qed.

    (** From updates placed before. *)
    Lemma updated_avail : forall o1 o2, objs = o1 ++ o2 -> (forall s, In s o1 -> incl (stmt_requires s) A) ->
      forall e, uexp e = true -> kok local e -> (forall id i n, In (id, (i, n)) (reads_of e) -> In (SUpdate id n) o1) ->
      incl (expr_requires e) A -> avail A (kof local e).
    Proof.
      intros o1 o2 Eo Rq e. induction e using expr_ind'; intros U K R I; cbn [uexp kok expr_requires kof reads_of] in *; try exact Logic.I;
        repeat match goal with H : _ && _ = true |- _ => apply andb_prop in H; destruct H end;
        repeat match goal with H : _ /\ _ |- _ => destruct H end; repeat sub;
        try (assert (R1 : forall id i n, In (id, (i, n)) (reads_of e1) -> In (SUpdate id n) o1) by (intros; eapply R; rewrite ?in_app_iff; eauto));
        try (assert (R2 : forall id i n, In (id, (i, n)) (reads_of e2) -> In (SUpdate id n) o1) by (intros; eapply R; rewrite ?in_app_iff; eauto));
        try (assert (R3 : forall id i n, In (id, (i, n)) (reads_of e3) -> In (SUpdate id n) o1) by (intros; eapply R; rewrite ?in_app_iff; eauto)).
      - apply Nat.eqb_eq in U. subst. apply HA1. apply I. simpl. auto.
      - destruct l as [|e l]; [exact Logic.I|]. cbn in U, H0, I. apply andb_prop in U. destruct U, H0.
        sub. inversion H as [|? ? He _]; subst. apply He; auto. intros id i n J. eapply R. cbn. rewrite in_app_iff. eauto.
      - discriminate.
      - apply IHe; auto.
      - apply avail_join; [apply IHe1|apply IHe2]; auto.
      - apply IHe; auto.
      - apply avail_join; [apply IHe1|apply IHe2]; auto.
      - match goal with H : exists x d, _ |- _ => destruct H as (x & d & ->) end. cbn in *.
        match goal with H : (_ =? 0) = true |- _ => apply Nat.eqb_eq in H end. subst. match goal with |- avail _ (if ?b then _ else _) => destruct b end; cbn; eauto with datatypes.
      - discriminate.
      - pose proof (R id i e (or_introl eq_refl)) as J. destruct (in_split _ _ J) as (l1 & l2 & El).
        apply IHe; auto.
        + intros id' i' n' J'.
          assert (E' : objs = l1 ++ SUpdate id e :: (l2 ++ o2)) by (rewrite Eo, El, <- app_assoc; auto).
          destruct (ordered _ _ _ E') as (_ & Q & _). rewrite El. apply in_app_iff. left. apply (Q id' i' n').
          cbn. rewrite app_nil_r. auto.
        + intros u Iu. apply (Rq _ J). cbn. auto.
      - apply IHe2; auto.
      - apply avail_join; [apply avail_join; [apply IHe1|apply IHe2]|apply IHe3]; auto.
      - apply IHe1; auto.
      - apply IHe; auto.
    Qed.

    (** Where a register read is entered. *)
    Definition entered_read (e : expr) (id : nat) : Prop := exists i n cur,
      In (id, (i, n)) (reads_of e) /\ pok (EFetch id i n) cur /\ kok local (EFetch id i n) /\ (0 < cur -> avail A (kof local n)).

    Lemma entered_in : forall e e' id, (forall p, In p (reads_of e) -> In p (reads_of e')) -> entered_read e id -> entered_read e' id.
    Proof. intros e e' id H (i & n & cur & J & Q). exists i, n, cur. auto. Qed.

    Lemma walk : forall e cur l1 id l2, uexp e = true -> kok local e -> pok e cur -> regs e ->
      (0 < cur -> avail A (kof local e)) -> expr_requires e = l1 ++ RInitReg id :: l2 -> incl l1 A -> entered_read e id.
    Proof.
      intros e. induction e using expr_ind'; intros cur l1 id' l2 U K P R Av E I; cbn [uexp kok pok expr_requires kof] in *;
        repeat match goal with H : _ && _ = true |- _ => apply andb_prop in H; destruct H end;
        repeat match goal with H : _ /\ _ |- _ => destruct H end.
      - destruct l1; discriminate.
      - destruct d; [|destruct l1; discriminate]. destruct l1 as [|? [|]]; discriminate.
      - destruct l1 as [|? [|]]; discriminate.
      - (* tuple *)
        assert (X : forall m e0, Forall (fun e => ident_clk (kof local e0) (kof local e)) m -> (0 < cur -> avail A (kof local e0)) ->
          fold_right and True (map (kok local) m) -> fold_right and True (map (fun e => pok e cur) m) -> forallb uexp m = true ->
          (forall e, In e m -> In e l) -> forall l1, flat_map expr_requires m = l1 ++ RInitReg id' :: l2 -> incl l1 A ->
          exists e, In e m /\ entered_read e id').
        { induction m as [|e m IH]; intros e0 F Av0 Km Pm Um Lm l1' E' I'; cbn in *; [destruct l1'; discriminate|].
          inversion F as [|? ? Fe Fm]; subst. apply andb_prop in Um. destruct Um as [Ue Um], Km as [Ke Km], Pm as [Pe Pm]. apply split_app in E'. destruct E' as [(m' & E')|(m' & E' & ->)].
          - exists e. split; auto. rewrite Forall_forall in H.
            apply (H e (Lm e (or_introl eq_refl))) with (cur := cur) (l1 := l1') (l2 := m'); auto.
            + intros id i n J. apply R. cbn. apply in_flat_map. eauto.
            + intros L. eapply avail_ident; eauto.
          - apply incl_app_inv in I'. destruct I' as [_ I']. destruct (IH e0 Fm Av0 Km Pm Um (fun e J => Lm e (or_intror J)) m' E' I') as (e' & J & Q). eauto. }
        destruct l as [|e0 l]; [destruct l1; discriminate|].
        destruct (X (e0 :: l) e0 H1 Av H0 P U (fun e J => J) l1 E I) as (e & J & Q).
        eapply entered_in; [|exact Q]. intros p Jp. cbn [reads_of]. apply in_flat_map. eauto.
      - discriminate.
      - eapply IHe; eauto.
      - apply split_app in E. destruct E as [(m & E)|(m & E & ->)].
        + eapply entered_in; [|eapply IHe1; eauto; [rg|parts]]. intros; cbn; apply in_app_iff; auto.
        + apply incl_app_inv in I. destruct I as [_ I].
          eapply entered_in; [|eapply IHe2; eauto; [rg|parts]]. intros; cbn; apply in_app_iff; auto.
      - eapply IHe; eauto.
      - apply split_app in E. destruct E as [(m & E)|(m & E & ->)].
        + eapply entered_in; [|eapply IHe1; eauto; [rg|parts]]. intros; cbn; apply in_app_iff; auto.
        + apply incl_app_inv in I. destruct I as [_ I].
          eapply entered_in; [|eapply IHe2; eauto; [rg|parts]]. intros; cbn; apply in_app_iff; auto.
      - match goal with H : exists x d, _ |- _ => destruct H as (x & d & ->) end. apply split_app in E. destruct E as [(m & E)|(m & E & ->)].
        + eapply entered_in; [|eapply IHe1; eauto; [rg|]]; [intros; cbn; apply in_app_iff; auto|].
          intros L. apply Av in L. match goal with H : comp _ (kof _ _), H' : kok _ (EVar _ _) |- _ => cbn in H, H'; rename H into Cx, H' into Lx0 end.
          assert (Ax : avail A (kvar local x)) by (apply HA1; match type of L with avail _ (if ?b then _ else _) => destruct b end; exact L).
          destruct Cx as [-> |[Z| ->]]; [exact Logic.I| |exact Ax].
          exfalso. unfold kvar in Z. destruct (lookup x local) as [c|] eqn:Lx; [|exact (Lx0 eq_refl)].
          apply (plain x). destruct c as [[|] ?| |]; cbn in Z; congruence.
        + cbn in E. destruct d; [destruct m as [|? [|]]|destruct m]; discriminate.
      - discriminate.
      - destruct l1 as [|? [|]]; try discriminate. injection E as -> _. exists i, e, cur. split; [simpl; auto|].
        split; [exact P|]. split; [split; auto|exact Av].
      - apply split_app in E. destruct E as [(m & E)|(m & E & ->)].
        + eapply entered_in; [|eapply IHe1; eauto; [rg|intros L; eapply avail_ident; eauto]]. intros; cbn; apply in_app_iff; auto.
        + apply incl_app_inv in I. destruct I as [Ia I].
          eapply entered_in; [|eapply IHe2 with (cur := cur + 1); eauto; [rg|intros _]]; [intros; cbn; apply in_app_iff; auto|].
          destruct cur as [|cur]; [|apply Av; lia].
          apply (avail_ident _ (kof local e1)); [apply ident_sym; auto|]. apply present_avail; auto. rg.
      - apply split_app in E. destruct E as [(m & E)|(m & E & ->)].
        + eapply entered_in; [|eapply IHe1; eauto; [rg|parts]].
          intros; cbn; apply in_app_iff; auto.
        + apply incl_app_inv in I. destruct I as [_ I]. apply split_app in E. destruct E as [(m' & E)|(m' & E & ->)].
          * eapply entered_in; [|eapply IHe2; eauto; [rg|parts]].
            intros; cbn; rewrite !in_app_iff; auto.
          * apply incl_app_inv in I. destruct I as [_ I].
            eapply entered_in; [|eapply IHe3; eauto; [rg|parts]].
            intros; cbn; rewrite !in_app_iff; auto.
      - match goal with H : exists x d, _ |- _ => destruct H as (x & d & -> & Ca & Cb) end.
        match goal with H : uexp (EVar _ _) = true |- _ => apply Nat.eqb_eq in H end. subst d. cbn in E.
        destruct l1 as [|r l1]; [discriminate|]. cbn in E. injection E as <- E.
        assert (Ix : In (RLocal x) A) by (apply I; simpl; auto).
        assert (I' : incl l1 A) by (intros u J; apply I; simpl; auto).
        apply split_app in E. destruct E as [(m' & E)|(m' & E & ->)].
        + eapply entered_in; [|eapply IHe2; eauto; [rg|intros _; destruct Ca as [-> |[Z| ->]]; [exact Logic.I|discriminate|exact Ix]]].
          intros; cbn; rewrite !in_app_iff; auto.
        + apply incl_app_inv in I'. destruct I' as [_ I'].
          eapply entered_in; [|eapply IHe3; eauto; [rg|intros _; destruct Cb as [-> |[Z| ->]]; [exact Logic.I|discriminate|exact Ix]]].
          intros; cbn; rewrite !in_app_iff; auto.
      - eapply IHe; eauto.
    Qed.
  End At.

  (** ** Along the order of the units *)
  Variable ext : list reference.
  Variable us : list reference.
  Hypothesis nodup : NoDup us.
  Hypothesis ment : incl (mentions stmt_provides stmt_requires ext objs) us.
  Hypothesis enter : forall B s C, us = B ++ s :: C -> exists A B', B = A ++ B' /\ uentered stmt_provides stmt_requires ext objs s A.
  Hypothesis before : forall B s C o, us = B ++ s :: C -> In o objs -> In s (stmt_provides o) -> incl (stmt_requires o) B.
  (** What the passes accepted. *)
  Hypothesis ext_local : forall u, In u ext -> exists x, u = RLocal x.
  Hypothesis slow : forall x, (exists y, kvar local x = KOn y \/ kvar local x = KOff y) -> exists t e, In (SLet t e) objs /\ In x (target_vars t).
  Hypothesis lets : forall t e, In (SLet t e) objs -> kok local e /\ pok e 0 /\ forall x, In x (target_vars t) -> ident_clk (kof local e) (kvar local x).
  Hypothesis inits : forall id i c, In (SInit id i c) objs -> c = None /\ exists n cur, In (SUpdate id n) objs /\ pok (EFetch id i n) cur /\ kok local (EFetch id i n).
  Hypothesis updates : forall id n n', In (SUpdate id n) objs -> In (SUpdate id n') objs -> n = n'.
  Hypothesis init_once : forall id i i', In (SInit id i None) objs -> In (SInit id i' None) objs -> i = i'.

  Lemma init_closed : forall B C, us = B ++ C -> forall id i, In (RInitReg id) B -> In (SInit id (Some i) None) objs -> incl (expr_requires i) B.
  Proof.
    intros B C E id i I J. apply in_split in I. destruct I as (B1 & B2 & ->). rewrite <- app_assoc in E. cbn in E.
    intros u Iu. apply in_app_iff. left. eapply (before _ _ _ (SInit id (Some i) None) E); eauto. simpl. auto.
  Qed.

  Lemma local_avail : forall k B x C, length B <= k -> us = B ++ RLocal x :: C -> avail B (kvar local x).
  Proof.
    induction k as [k IH] using lt_wf_ind. intros B x C L E.
    destruct (kvar local x) eqn:Kx; try exact Logic.I.
    all: destruct (slow x) as (t & e & I & J); [eauto|].
    all: rewrite <- Kx; destruct (lets _ _ I) as (K & P & T); apply (avail_ident _ _ _ (T _ J)).
    all: apply present_avail; auto.
    all: try (eapply uexp_of; eauto; simpl; auto; fail); try (eapply regs_of; eauto; simpl; auto; fail).
    all: try (eapply init_closed; eauto; fail).
    all: try (eapply (before _ _ _ _ E I); simpl; apply in_map; auto; fail).
    all: intros y Iy; apply in_split in Iy; destruct Iy as (B1 & B2 & ->).
    all: apply (avail_incl B1); [intros u Iu; apply in_app_iff; auto|].
    all: rewrite app_length in L; cbn in L; rewrite <- app_assoc in E; cbn in E; eapply (IH (length B1)); eauto; lia.
  Qed.

  Definition prefix (A : list reference) : Prop := exists C, us = A ++ C.
  Lemma prefix_locals : forall A, prefix A -> forall x, In (RLocal x) A -> avail A (kvar local x).
  Proof.
    intros A (C & E) x I. apply in_split in I. destruct I as (B1 & B2 & ->).
    apply (avail_incl B1); [intros u Iu; apply in_app_iff; auto|]. rewrite <- app_assoc in E. cbn in E. eapply local_avail; eauto.
  Qed.
  Lemma prefix_inits : forall A, prefix A -> forall id i, In (RInitReg id) A -> In (SInit id (Some i) None) objs -> incl (expr_requires i) A.
  Proof. intros A (C & E). eapply init_closed; eauto. Qed.

  (** The longest list of first statements that does not mention a unit. *)
  Lemma first_mention : forall u, ~ In u ext -> In u (mentions stmt_provides stmt_requires ext objs) ->
    exists o1 s o2, objs = o1 ++ s :: o2 /\ ~ In u (mentions stmt_provides stmt_requires ext o1) /\ (In u (stmt_provides s) \/ In u (stmt_requires s)).
  Proof.
    intros u Ne I. unfold mentions in *. apply in_app_iff in I. destruct I as [I|I]; [contradiction|].
    assert (X : forall l, In u (flat_map (fun o => stmt_provides o ++ stmt_requires o) l) -> exists o1 s o2, l = o1 ++ s :: o2 /\
      ~ In u (flat_map (fun o => stmt_provides o ++ stmt_requires o) o1) /\ (In u (stmt_provides s) \/ In u (stmt_requires s))).
    { assert (Dec : forall a b : reference, {a = b} + {a <> b}) by (repeat decide equality).
      induction l as [|s l IHl]; cbn; [tauto|]. intros J.
      destruct (in_dec Dec u (stmt_provides s ++ stmt_requires s)) as [Y|N].
      - exists [], s, l. cbn. split; auto. split; auto. apply in_app_iff; auto.
      - apply in_app_iff in J. destruct J as [J|J]; [contradiction|]. destruct (IHl J) as (o1 & s' & o2 & -> & A & B).
        exists (s :: o1), s', o2. split; auto. split; auto. cbn. rewrite in_app_iff. tauto. }
    destruct (X _ I) as (o1 & s & o2 & E & A & B). exists o1, s, o2. split; auto. split; auto. rewrite in_app_iff. tauto.
  Qed.

  Lemma requires_reads : forall e id, In (RInitReg id) (expr_requires e) -> exists i n, In (id, (i, n)) (reads_of e).
  Proof.
    intros e. induction e using expr_ind'; intros id' I; cbn [expr_requires reads_of] in *; try (destruct I; fail); eauto;
      rewrite ?in_app_iff in I.
    all: try (repeat match goal with H : _ \/ _ |- _ => destruct H end;
      match goal with IH : forall id, In (RInitReg id) (expr_requires ?e) -> _, H : In _ (expr_requires ?e) |- _ => destruct (IH _ H) as (i0 & n0 & J) end;
      exists i0, n0; rewrite ?in_app_iff; tauto).
    - destruct d; cbn in I; [destruct I as [I|[]]; discriminate|destruct I].
    - cbn in I. destruct I as [I|[]]; discriminate.
    - apply in_flat_map in I. destruct I as (e & I & J). rewrite Forall_forall in H. destruct (H e I _ J) as (i & n & Q).
      exists i, n. apply in_flat_map. eauto.
    - cbn in I. destruct I as [I|[]]. inversion I; subst. exists i, e. cbn. auto.
  Qed.

  Lemma kok_next : forall id i n, kok local (EFetch id i n) -> kok local n.
  Proof. cbn. tauto. Qed.

  Definition register_at (id : nat) (A : list reference) : Prop := exists i n cur,
    In (SInit id i None) objs /\ In (SUpdate id n) objs /\
    pok (EFetch id i n) cur /\ kok local (EFetch id i n) /\ (0 < cur -> avail A (kof local n)).

  Lemma entered_at : forall s D, uentered stmt_provides stmt_requires ext objs s D ->
    forall id A, s = RInitReg id -> In (RInitReg id) us -> (exists i, In (SInit id i None) objs) -> prefix A -> incl D A -> register_at id A.
  Proof.
    induction 1 as [s D Hr|p D o l1 s l2 D' En IH Io Ip Er Id Il]; intros id A -> Iu (i & Ii) Pr Ia.
    - destruct (inits _ _ _ Ii) as (_ & n & cur & Iup & P & K). exists i, n, cur. repeat (split; auto).
      intros _. assert (Ne : ~ In (RInitReg id) ext) by (intros J; destruct (ext_local _ J); discriminate).
      destruct (first_mention (RInitReg id) Ne) as (o1 & s & o2 & Eo & Nm & Ms).
      { unfold mentions. apply in_app_iff. right. apply in_flat_map. exists (SInit id i None). split; auto. simpl. auto. }
      assert (U1 : In (SUpdate id n) o1).
      { destruct (ordered _ _ _ Eo) as (_ & Or & Oi).
        assert (exists n', In (SUpdate id n') o1) as (n' & J).
        { destruct Ms as [Ms|Ms].
          - destruct s as [t e|e|id' v c|id' e]; cbn in Ms; try tauto.
            + apply in_map_iff in Ms. destruct Ms as (? & ? & _). discriminate.
            + destruct Ms as [Ms|[]]. inversion Ms; subst. eapply Oi; eauto.
          - assert (exists e, In e (stmt_exprs s) /\ In (RInitReg id) (expr_requires e)) as (e & Ie & Je).
            { destruct s as [t e|e|id' v c|id' e]; cbn in *; eauto.
              - destruct v as [v|]; [|destruct Ms]. exists v. split; auto. apply in_app_iff. simpl. auto.
              - destruct Ms as [Ms|Ms]; [discriminate|]. eauto. }
            destruct (requires_reads _ _ Je) as (i' & n' & Q). exists n'. eapply Or. apply in_flat_map. eauto. }
        rewrite (updates id n n'); auto. rewrite Eo. apply in_app_iff. auto. }
      assert (Rq : incl (mentions stmt_provides stmt_requires ext o1) A) by (intros u Ju; apply Ia; eapply Hr; eauto).
      assert (Rq' : forall s, In s o1 -> incl (stmt_requires s) A).
      { intros s' Is u Ju. apply Rq. unfold mentions. apply in_app_iff. right. apply in_flat_map. exists s'. split; auto. apply in_app_iff. auto. }
      destruct (in_split _ _ U1) as (a & b & Ea).
      assert (Eo' : objs = a ++ SUpdate id n :: (b ++ s :: o2)) by (rewrite Eo, Ea, <- app_assoc; auto).
      destruct (ordered _ _ _ Eo') as (Un & Or & _). cbn in Un, Or. rewrite app_nil_r in Or.
      apply (updated_avail A (prefix_locals A Pr) (prefix_inits A Pr) o1 (s :: o2) Eo Rq'); auto.
      + inversion Un; auto.
      + eapply kok_next; eauto.
      + intros id' i' n' J. rewrite Ea. apply in_app_iff. left. eauto.
      + intros u Ju. apply (Rq' _ U1). cbn. auto.
    - assert (Il' : incl l1 A) by (intros u J; auto).
      assert (F : forall e cur, In e (stmt_exprs o) -> expr_requires e = l1 ++ RInitReg id :: l2 -> kok local e -> pok e cur -> (0 < cur -> avail A (kof local e)) -> register_at id A).
      { intros e cur Ie Ee Ke Pe Ae.
        destruct (walk A (prefix_locals A Pr) (prefix_inits A Pr) e cur l1 id l2) as (i' & n' & cur' & R & P' & K' & A'); auto.
        - exact (uexp_of _ _ Io Ie).
        - exact (regs_of _ _ Io Ie).
        - destruct (fetch _ _ _ _ _ Io Ie R). exists i', n', cur'. auto. }
      destruct o as [t e|e|id' v c|id' e]; cbn in Ip; try tauto.
      + destruct (lets _ _ Io) as (K & P & _). apply (F e 0); cbn; auto. lia.
      + destruct Ip as [<-|[]]. destruct (inits _ _ _ Io) as (-> & _). cbn in Er.
        destruct v as [v|]; [|destruct l1; discriminate].
        assert (Iu' : In (RInitReg id') us).
        { apply ment. unfold mentions. apply in_app_iff. right. apply in_flat_map. exists (SInit id' (Some v) None). split; auto. simpl. auto. }
        destruct (IH id' A eq_refl Iu' (ex_intro (fun i => In (SInit id' i None) objs) _ Io) Pr) as (i1 & n1 & cur & I1 & U1 & P1 & K1 & A1); [intros u J; auto|].
        assert (i1 = Some v) by eauto. subst i1. cbn in P1, K1. destruct P1 as [P1 _], K1 as [[K1 K2] _].
        apply (F v cur); cbn; auto. intros L. eapply avail_ident; eauto.
  Qed.

  (** The clock of a register is among the units before it. *)
  Theorem register_avail : forall B id C i n, us = B ++ RInitReg id :: C -> In (SInit id i None) objs -> In (SUpdate id n) objs ->
    avail B (kof local n).
  Proof.
    intros B id C i n E I U.
    assert (Pr : prefix B) by (exists (RInitReg id :: C); auto).
    destruct (enter _ _ _ E) as (A & B' & EB & En).
    destruct (entered_at _ _ En id B eq_refl) as (i1 & n1 & cur & I1 & U1 & P1 & K1 & A1); eauto.
    { rewrite E. apply in_app_iff. simpl. auto. }
    { intros u J. rewrite EB. apply in_app_iff. auto. }
    assert (i1 = i) by eauto. assert (n1 = n) by eauto. subst.
    destruct cur; [|apply A1; lia]. destruct i as [i|]; [|destruct P1]. cbn in P1, K1. destruct P1 as [P1 _], K1 as [[K1 K2] _].
    apply (avail_ident _ (kof local i)); [apply ident_sym; auto|].
    apply (present_avail (A ++ B') (prefix_locals _ Pr) (prefix_inits _ Pr)); auto.
    - apply (uexp_of _ i I). cbn. auto.
    - apply (regs_of _ i I). cbn. auto.
    - apply (before _ _ _ _ E I). cbn. auto.
  Qed.
End Available.

(** ** Compiled nodes *)
Lemma reads_child : forall e c, (forall id i n, e <> EFetch id i n) -> In c (children e) -> incl (reads_of c) (reads_of e).
Proof.
  intros e c N I p J. destruct e; cbn [children reads_of] in *; try (destruct I; fail);
    try (destruct I as [<-|[]]; auto; fail); try (destruct I as [<-|[<-|[]]]; rewrite in_app_iff; auto; fail);
    try (destruct I as [<-|[<-|[<-|[]]]]; rewrite !in_app_iff; auto; fail).
  - apply in_flat_map. eauto.
  - exfalso. eapply N; eauto.
Qed.

Lemma occurs_regs : forall objs,
  (forall s e id i n, In s objs -> In e (stmt_exprs s) -> In (id, (i, n)) (reads_of e) -> In (SUpdate id n) objs /\ In (SInit id i None) objs) ->
  forall x e, occurs x e -> regs objs e -> regs objs x.
Proof.
  intros objs F x e O. induction O as [|e c I O IH]; intros R; auto. apply IH.
  assert (D : {p : nat * (option expr * expr) | e = EFetch (fst p) (fst (snd p)) (snd (snd p))} + {forall id i n, e <> EFetch id i n}).
  { destruct e; try (right; discriminate). left. exists (id, (init, e)). auto. }
  destruct D as [((id, (i, n)) & ->)|N].
  - cbn in *. destruct (R id i n (or_introl eq_refl)) as [A B]. apply in_app_iff in I. destruct I as [I|[<-|[]]].
    + destruct i as [i|]; [|destruct I]. destruct I as [<-|[]]. intros id' i' n' J. eapply F; [exact B| |exact J]. simpl. auto.
    + intros id' i' n' J. eapply F; [exact A| |exact J]. simpl. auto.
  - intros id i n J. apply R. eapply reads_child; eauto.
Qed.

Lemma lookup_rev_vars : forall l x c, lookup x (rev (map (fun v => (v_name v, v_clk v)) l)) = Some c -> exists v, In v l /\ v_name v = x /\ v_clk v = c.
Proof.
  intros l x c H. assert (I : In (x, c) (rev (map (fun v => (v_name v, v_clk v)) l))).
  { revert H. generalize (rev (map (fun v => (v_name v, v_clk v)) l)). induction l0 as [|[y d] l0 IH]; cbn; [discriminate|].
    destruct (String.eqb_spec x y); intros H; [inversion H; subst; auto|auto]. }
  apply in_rev in I. apply in_map_iff in I. destruct I as (v & E & I). inversion E; subst. eauto.
Qed.

Lemma each_ok : forall {A} (f : A -> out unit) l u, result (each f l) = Some u -> forall a, In a l -> result (f a) = Some tt.
Proof.
  induction l as [|b l IH]; intros u H a I; [destruct I|]. cbn [each] in H. apply obind_some in H. destruct H as ([] & E & H).
  destruct I as [<-|I]; eauto.
Qed.

Lemma declared_decls : forall l v, In v (tr_decls l) -> In (v_name v, v_clk v) (declared_clocks l).
Proof.
  intros l v I. unfold tr_decls in I. apply in_flat_map in I. destruct I as ((xs, (b, c)) & I & J).
  apply in_map_iff in J. destruct J as (x & <- & J). unfold declared_clocks. apply in_flat_map. exists (xs, (b, c)). split; auto.
  cbn. apply in_map_iff. eauto.
Qed.
Lemma declared_app : forall a b, declared_clocks (a ++ b) = declared_clocks a ++ declared_clocks b.
Proof. intros. unfold declared_clocks. apply flat_map_app. Qed.

Lemma stmt_count_vars : forall x s, stmt_count x s <> 0 <-> In (RLocal x) (stmt_provides s).
Proof.
  intros x s. destruct s as [t e|e|id v c|id e]; cbn; try (split; [intros H; destruct (H eq_refl)|intros []]).
  - rewrite target_count_vars. split; intros H.
    + apply in_map. apply (count_occ_In string_dec). lia.
    + apply in_map_iff in H. destruct H as (y & E & H). inversion E; subst. apply (count_occ_In string_dec) in H. lia.
  - discriminate.
  - destruct H.
Qed.

Lemma pos_stmts_ok : forall l m m', result (pos_stmts l m) = Some m' -> forall s e, In s l -> sourced s = true -> In e (stmt_exprs s) -> pok e 0.
Proof.
  induction l as [|i l IH]; intros m m' H s e I S J; [destruct I|]. cbn [pos_stmts] in H. apply obind_some in H. destruct H as (m1 & E & H).
  destruct I as [<-|I]; [|eauto]. destruct i; try discriminate; destruct J as [<-|[]]; eapply pos_pok; eauto.
Qed.

Lemma sourced_clocked : forall s s', clocked_as s s' -> sourced s = true -> s' = s.
Proof. intros s s' H S. inversion H; subst; auto. discriminate. Qed.

(** The clock of a register reads at most one variable. *)
Lemma forge_reads : forall k x, reads_now x (forge_as_expr k) -> k = KOn x \/ k = KOff x.
Proof. intros k x H. destruct k; cbn in H; repeat match goal with H : reads_now _ _ |- _ => inversion H; subst; clear H end; auto. Qed.
Lemma forge_fetches : forall k r, ~ fetches r (forge_as_expr k).
Proof. intros k r H. destruct k; cbn in H; repeat match goal with H : fetches _ _ |- _ => inversion H; subst; clear H end. Qed.

Lemma defined_by : forall y l, definitions y l <> 0 -> exists s, In s l /\ stmt_count y s <> 0.
Proof.
  intros y. induction l as [|a l IHl]; intros H; [exfalso; apply H; reflexivity|].
  change (stmt_count y a + definitions y l <> 0) in H. destruct (Nat.eq_dec (stmt_count y a) 0).
  - destruct IHl as (a' & ? & ?); [lia|]. exists a'. simpl. auto.
  - exists a. simpl. auto.
Qed.

Theorem compiled_ordered : forall o sn nd, compiled_node o sn nd -> (o_universal o = true -> plain_clocks sn) -> well_ordered (n_stmts nd).
Proof.
  intros o sn nd Cn Pl. destruct (compiled_passed_full _ _ _ Cn) as (nd0 & stmts & Pa & Tr & (u0 & Imp) & (m & Ps)).
  pose proof (pa_translated _ _ _ _ _ Pa) as T. pose proof (pa_causality _ _ _ _ _ Pa) as Ca. pose proof (pa_perm _ _ _ _ _ Pa) as Pm.
  pose proof (pa_clocked _ _ _ _ _ Pa) as Ck. pose proof (pa_kc _ _ _ _ _ Pa) as Kc.
  set (local := rev (map (fun v => (v_name v, v_clk v)) (all_vars nd0))) in *.
  pose proof (node_causality_inv _ _ Ca) as [Sc _]. cbn [n_stmts] in Sc.
  intros k s e Es Ie. destruct (forall2_nth _ _ _ Ck _ _ Es) as (s0 & Es0 & Cs).
  assert (V : stmt_value s0 = Some e \/ exists id v c, s0 = SInit id v c /\ s = SInit id v (Some e)).
  { inversion Cs; subst; cbn in Ie.
    - left. destruct s; cbn in *; try discriminate; destruct Ie as [<-|[]]; auto.
    - destruct Ie as [<-|Ie]; [right; eauto|]. destruct v as [v|]; [|destruct Ie]. destruct Ie as [<-|[]]. auto. }
  destruct V as [V|(id & v & c & -> & ->)].
  { destruct (node_order _ _ Ca k s0 Es0) as [A B]. cbn [n_stmts] in A, B. split.
    - intros x R k' s' E' Nz. destruct (forall2_nth _ _ _ Ck _ _ E') as (s1 & E1 & C1). apply (A x) with (s' := s1); auto.
      + red. eauto.
      + inversion C1; subst; auto.
    - intros r F k' v c E'. destruct (forall2_nth _ _ _ Ck _ _ E') as (s1 & E1 & C1).
      assert (exists c', s1 = SInit r v c') as (c' & ->) by (inversion C1; subst; eauto).
      apply (B r) with (v := v) (c := c'); auto. red. eauto. }
  destruct (pa_tied _ _ _ _ _ Pa id v e (nth_error_In _ _ Es)) as (st & e0 & I1 & S1 & J1 & (i' & n & ks & kk & ks' & Oc & Kn & ->)).
  destruct (kc_kok _ _ _ _ _ Kn) as [-> Kn'].
  assert (Fp : forall r, ~ fetches r (forge_as_expr (kof local n))).
  { intros r. apply forge_fetches. }
  split; [|intros r F; exfalso; eapply Fp; eauto].
  intros x Rx k' s' E' Nz.
  assert (Kx : kof local n = KOn x \/ kof local n = KOff x).
  { apply forge_reads. exact Rx. }
  destruct (forall2_nth _ _ _ Ck _ _ E') as (s1 & E1 & C1).
  assert (P1 : In (RLocal x) (stmt_provides s1)) by (apply stmt_count_vars; inversion C1; subst; auto).
  assert (U : o_universal o = true).
  { destruct (o_universal o) eqn:U; auto. exfalso. pose proof (td_inits _ _ _ T) as TI.
    rewrite (tr_node_no_regs _ _ _ Tr U) in TI. cbn in TI. apply Permutation_sym, Permutation_nil in TI.
    assert (X : In id (flat_map stmt_inits (n_stmts nd0))).
    { apply in_flat_map. exists (SInit id v c). split; [|simpl; auto]. eapply Permutation_in; eauto using nth_error_In. }
    rewrite TI in X. destruct X. }
  specialize (Pl U).
  destruct (unit_order reference_eqb reference_eqb_spec _ _ _ _ _ _ Sc) as (us & Nu & Mu & En & Be & Af).
  assert (Fe : forall s e id i n, In s (n_stmts nd0) -> In e (stmt_exprs s) -> In (id, (i, n)) (reads_of e) ->
    In (SUpdate id n) (n_stmts nd0) /\ In (SInit id i None) (n_stmts nd0)).
  { intros s2 e2 id2 i2 n2 A B C. eapply (td_fetch _ _ _ T). apply in_flat_map. exists e2. split; auto. apply in_flat_map. eauto. }
  assert (Src : forall s e, In s (n_stmts nd0) -> sourced s = true -> In e (stmt_exprs s) -> kok local e /\ pok e 0).
  { intros s2 e2 I2 So J2. apply (Permutation_in _ (Permutation_sym Pm)) in I2. split.
    - rewrite Forall_forall in Kc. destruct (kc_stmt_expr _ _ _ (Kc _ I2) So J2) as (x1 & x2 & x3 & X). eapply kc_kok; eauto.
    - apply In_nth_error in I2. destruct I2 as (k2 & I2). destruct (forall2_nth_l _ _ _ Ck _ _ I2) as (s3 & I3 & C3).
      rewrite (sourced_clocked _ _ C3 So) in I3. eapply pos_stmts_ok; eauto using nth_error_In. }
  assert (Occ : forall id i n e, In e (flat_map stmt_exprs (filter sourced (n_stmts nd0))) -> occurs (EFetch id i n) e ->
    In (SUpdate id n) (n_stmts nd0) /\ In (SInit id i None) (n_stmts nd0) /\ (exists cur, pok (EFetch id i n) cur) /\ kok local (EFetch id i n)).
  { intros id2 i2 n2 e2 I2 O2. apply in_flat_map in I2. destruct I2 as (s2 & I2 & J2). apply filter_In in I2. destruct I2 as [I2 So].
    destruct (Src _ _ I2 So J2) as [K2 P2].
    assert (R2 : regs (n_stmts nd0) (EFetch id2 i2 n2)).
    { eapply occurs_regs; [exact Fe|exact O2|]. intros a b c' d. eapply Fe; eauto. }
    destruct (R2 id2 i2 n2) as [Q1 Q2]; [simpl; auto|]. split; auto. split; auto. split.
    - eapply pok_occurs; eauto.
    - eapply kok_occurs; eauto. }
  assert (Ins : In (SInit id v c) (n_stmts nd0)) by (eapply Permutation_in; eauto using nth_error_In).
  assert (c = None) by (eapply translated_init_none; eauto). subst c.
  destruct (Occ id i' n e0) as (Uq & Iq & _); [|exact Oc|].
  { apply in_flat_map. exists st. split; auto. apply filter_In. split; auto. eapply Permutation_in; eauto. }
  assert (Iu : In (RInitReg id) us).
  { apply Mu. unfold mentions. apply in_app_iff. right. apply in_flat_map. exists (SInit id v None). split; auto. simpl. auto. }
  apply in_split in Iu. destruct Iu as (B & C & Eu).
  assert (Av : avail B (kof local n)).
  { eapply (register_avail local (n_stmts nd0)) with (ext := map (fun x => RLocal (v_name x)) (n_inputs nd0)) (us := us); eauto.
    - intros y Ly. apply lookup_rev_vars in Ly. destruct Ly as (w & Iw & _ & Cw).
      apply (Pl (v_name w) (v_clk w)); auto. rewrite !declared_app. unfold all_vars in Iw.
      rewrite (td_inputs _ _ _ T), (td_outputs _ _ _ T), (td_locals _ _ _ T) in Iw.
      rewrite !in_app_iff in *. destruct Iw as [Iw|[Iw|Iw]]; auto using declared_decls.
    - eapply tr_node_uordered; eauto.
    - intros y Iy. apply in_map_iff in Iy. destruct Iy as (w & <- & _). eauto.
    - intros y (z & Kz).
      assert (exists p w, In w (all_vars nd0) /\ v_name w = y /\ v_clk w = CExplicit p z) as (p & w & Iw & Nw & Cw).
      { unfold kvar in Kz. destruct (lookup y local) as [cl|] eqn:Ly; [|destruct Kz; discriminate]. apply lookup_rev_vars in Ly.
        destruct Ly as (w & Iw & Nw & Cw). destruct cl as [[|] z'| |]; cbn in Kz; destruct Kz as [Kz|Kz]; inversion Kz; subst; eauto 6. }
      assert (Il : In w (n_outputs nd0 ++ n_locals nd0)) by (unfold all_vars in Iw; apply in_app_iff in Iw; destruct Iw as [Iw|Iw]; auto;
        pose proof (each_ok _ _ _ Imp w ltac:(apply in_app_iff; auto)) as X; unfold sig_implicit in X; rewrite Cw in X; destruct p; discriminate).
      destruct (node_definitions _ _ Ca) as [_ D]. specialize (D w Il). rewrite Nw in D.
      destruct (defined_by y (n_stmts nd0)) as (a & Ia & Na); [lia|]. destruct a as [t ea|ea|? ? ?|? ?]; cbn in Na; try lia.
      exists t, ea. split; auto. rewrite target_count_vars in Na. apply (count_occ_In string_dec). lia.
    - intros t ea Ia. destruct (Src _ ea Ia eq_refl (or_introl eq_refl)) as [Ka Ppa]. split; auto. split; auto. intros y Iy.
      apply (Permutation_in _ (Permutation_sym Pm)) in Ia. rewrite Forall_forall in Kc. destruct (Kc _ Ia) as (z1 & z2 & Z).
      cbn [kc_stmt] in Z. apply obind_some in Z. destruct Z as (kt & Zt & Z). apply obind_some in Z. destruct Z as ((kr, z3) & Ze & Z).
      destruct (kc_kok _ _ _ _ _ Ze) as [-> _].
      assert (Id : ident_clk kt (kof local ea)).
      { destruct t as [w|[|t0 l0]]; [| destruct Iy |]; apply obind_some in Z; destruct Z as ([] & Z & _); exact Z. }
      eapply ident_trans; [apply ident_sym; exact Id|]. eapply target_clock; eauto.
    - intros id2 i2 c2 I2. assert (c2 = None) by (eapply translated_init_none; eauto). subst c2. split; auto.
      destruct (td_init_occurs _ _ _ T _ _ _ I2) as (n2 & e2 & I3 & O2).
      destruct (Occ _ _ _ _ I3 O2) as (Q1 & _ & (cur & Q2) & Q3). eauto 6.
    - intros id2 n2 n3 I2 I3.
      assert (E : SUpdate id2 n2 = SUpdate id2 n3); [|congruence].
      eapply nodup_flat with (f := stmt_updates) (x := id2); [eapply perm_nodup_seq, (td_updates _ _ _ T)|eauto|eauto|simpl; auto|simpl; auto].
    - intros id2 i2 i3 I2 I3.
      assert (E : SInit id2 i2 None = SInit id2 i3 None); [|congruence].
      eapply nodup_flat with (f := stmt_inits) (x := id2); [eapply perm_nodup_seq, (td_inits _ _ _ T)|eauto|eauto|simpl; auto|simpl; auto]. }
  assert (Ix : In (RLocal x) B) by (destruct Kx as [Kx|Kx]; rewrite Kx in Av; exact Av).
  eapply (Af B (RInitReg id) C (SInit id v None) s1 (RLocal x) Eu Ins eq_refl); eauto.
  eapply Permutation_in; eauto using nth_error_In.
Qed.
