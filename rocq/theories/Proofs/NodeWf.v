(** What the passes guarantee about each node they accept. *)
From Coq Require Import String List ZArith Bool Arith Lia Permutation.
From Verif Require Import Model.Base Model.Scalar Model.Value Model.Ast Model.Errors Model.Interp Model.Options Model.Surface Model.Translate
  Model.Graph Model.Causality Model.Typecheck Model.Clockcheck Model.Positivity
  Spec.GraphSpec Spec.StepSpec Spec.CausalitySpec Spec.CoreSem Spec.TranslateSpec Proofs.AstInd Proofs.OutBasics Proofs.CoreProofs Proofs.CoreNode
  Proofs.GraphProofs Proofs.CausalityProofs Proofs.TranslateStruct.
Import ListNotations.

(** ** Clock check: every subexpression has been accepted. *)
Section Kc.
  Variable local : list (ident * clock).

  Lemma kc_tuple : forall l s, kc local (ETuple l) s =
    match l with
    | [] => done (KAdaptative, s)
    | e0 :: _ => '(g, s) <~ kc local e0 s;; s <~ kcs local g l s;; done (g, s)
    end.
  Proof.
    intros l s. destruct l as [|e0 l]; auto.
    assert (E : forall g l s, (fix go (l : list expr) (s : kst) {struct l} : out kst :=
         match l with
         | [] => done s
         | e :: l => '(k, s) <~ kc local e s;; _ <~ clk_identical g k;; go l s
         end) l s = kcs local g l s).
    { clear. induction l as [|e l IH]; intros s; [reflexivity|]. cbn [kcs].
      destruct (kc local e s) as [[[k s']|] es ws|]; auto. cbn [obind].
      destruct (clk_identical g k) as [[?|] ? ?|]; auto. cbn [obind]. rewrite IH. auto. }
    cbn [kc]. destruct (kc local e0 s) as [[[g s1]|] es ws|]; auto. cbn [obind].
    specialize (E g (e0 :: l) s1). cbn -[obind kcs] in E. rewrite <- E. reflexivity.
  Qed.

  Definition kc_ok (e : expr) : Prop := exists s k s', result (kc local e s) = Some (k, s').

  Lemma kcs_ok : forall g l s s', result (kcs local g l s) = Some s' -> Forall kc_ok l.
  Proof.
    induction l as [|e l IH]; intros s s' H; cbn [kcs] in H; constructor; inv_out; [red; eauto|eauto].
  Qed.

  Lemma kc_child : forall e, kc_ok e -> Forall kc_ok (children e).
  Proof.
    intros e (s & k & s' & H). destruct e; cbn [children]; try (constructor; fail);
      try (rewrite kc_tuple in H); cbn [kc] in H.
    - destruct l; [constructor|]. inv_out. eapply kcs_ok; eauto.
    - inv_out. repeat constructor. red; eauto.
    - repeat constructor. red; eauto.
    - inv_out. repeat constructor; red; eauto.
    - repeat constructor. red; eauto.
    - inv_out. repeat constructor; red; eauto.
    - inv_out. repeat constructor; red; eauto.
    - inv_out. repeat constructor; red; eauto.
    - inv_out. destruct init; inv_out; repeat constructor; red; eauto.
    - inv_out. repeat constructor; red; eauto.
    - inv_out. repeat constructor; red; eauto.
    - inv_out. repeat constructor; red; eauto.
    - repeat constructor. red; eauto.
  Qed.

  Lemma kc_occurs : forall x e, occurs x e -> kc_ok e -> kc_ok x.
  Proof.
    intros x e O. induction O; intros K; auto. apply IHO. apply kc_child in K. rewrite Forall_forall in K. auto.
  Qed.

  Lemma kc_switch : forall c a b, kc_ok (EMerge c a b) -> exists x d, c = EVar x d.
  Proof.
    intros c a b (s & k & s' & H). cbn [kc] in H. inv_out. destruct c; cbn in *; try discriminate. eauto.
  Qed.

  Lemma kc_pure : forall e, kc_ok e -> pure_switches e.
  Proof.
    intros e. induction e using expr_ind'; intros K; pose proof (kc_child _ K) as C; cbn [children] in C; cbn [pure_switches]; auto.
    { clear K. induction H as [|e l He _ IH]; [exact I|]. inversion C; subst. split; [auto|exact (IH H2)]. }
    all: repeat match goal with H : Forall _ (_ :: _) |- _ => inversion H; subst; clear H end; auto.
    destruct (kc_switch _ _ _ K) as (x & d & ->). simpl. auto.
  Qed.

  (** The clocks recorded for registers. *)
  Definition forged (s : kst) : Prop := forall id c, lookup_nat id s = Some c -> exists k, c = forge_as_expr k.

  Lemma kcs_forged : forall g l, Forall (fun e => forall s k s', result (kc local e s) = Some (k, s') -> forged s -> forged s') l ->
    forall s s', result (kcs local g l s) = Some s' -> forged s -> forged s'.
  Proof. induction 1 as [|e l H _ IH]; intros s s' E F; cbn [kcs] in E; inv_out; eauto. Qed.

  Lemma kc_forged : forall e s k s', result (kc local e s) = Some (k, s') -> forged s -> forged s'.
  Proof.
    intros e. induction e using expr_ind'; intros s0 k s1 E F; try rewrite kc_tuple in E; cbn [kc] in E;
      try (inv_out; repeat match goal with
        | A : result (kc local ?a ?s) = Some _, B : result (kc local _ ?t) = Some _ |- _ =>
            match t with context [result (kc local a s)] => rewrite A in B; cbn [knext] in B end end; eauto; fail).
    - destruct (lookup x local); inv_out; auto.
    - destruct l; [inv_out; auto|]. inv_out. eapply kcs_forged; [eauto|eauto|].
      inversion H; subst. eauto.
    - apply obind_some in E. destruct E as ((k', s2) & E & E').
      assert (F2 : forged s2) by eauto.
      destruct i; inv_out; cbn in *.
      + intros id' c' L. simpl in L. destruct (id' =? id); [inversion L; eauto|]. eapply (H _ _ _ E1); eauto.
      + intros id' c' L. simpl in L. destruct (id' =? id); [inversion L; eauto|]. eapply F2; eauto.
  Qed.

  (** The clock recorded for a register is that of its operand. *)
  Definition tied (e : expr) (id : nat) (c : expr) : Prop :=
    exists i n s k s', occurs (EFetch id i n) e /\ result (kc local n s) = Some (k, s') /\ c = forge_as_expr k.
  Lemma tied_child : forall e x id c, In x (children e) -> tied x id c -> tied e id c.
  Proof.
    intros e x id c I (i & n & s & k & s' & O & H). exists i, n, s, k, s'. split; auto. eapply occ_child; eauto.
  Qed.

  Lemma kcs_tied : forall g l, Forall (fun e => forall s k s', result (kc local e s) = Some (k, s') ->
      forall id c, lookup_nat id s' = Some c -> lookup_nat id s = Some c \/ tied e id c) l ->
    forall s s', result (kcs local g l s) = Some s' ->
      forall id c, lookup_nat id s' = Some c -> lookup_nat id s = Some c \/ exists e, In e l /\ tied e id c.
  Proof.
    induction 1 as [|e l H _ IH]; intros s s' E id c L; cbn [kcs] in E; inv_out; auto.
    destruct (IH _ _ E _ _ L) as [K|(x & I & K)]; [|right; exists x; simpl; auto].
    destruct (H _ _ _ E0 _ _ K); auto. right. exists e. simpl. auto.
  Qed.

  Lemma kc_tied : forall e s k s', result (kc local e s) = Some (k, s') ->
    forall id c, lookup_nat id s' = Some c -> lookup_nat id s = Some c \/ tied e id c.
  Proof.
    intros e. induction e using expr_ind'; intros s0 k s1 E id0 c0 L; try rewrite kc_tuple in E; cbn [kc] in E;
      try (inv_out; repeat match goal with
        | A : result (kc local ?a ?s) = Some _, B : result (kc local _ ?t) = Some _ |- _ =>
            match t with context [result (kc local a s)] => rewrite A in B; cbn [knext] in B end end; cbn [knext] in *; auto;
        repeat match goal with
        | IH : forall s k s', result (kc local ?e s) = Some (k, s') -> _, A : result (kc local ?e _) = Some (_, ?s'), L : lookup_nat _ ?s' = Some _ |- _ =>
            destruct (IH _ _ _ A _ _ L) as [?|?]; clear L end; auto;
        try (right; eapply tied_child; [|eassumption]; simpl; auto; fail); fail).
    - destruct (lookup x local); inv_out; auto.
    - destruct l as [|e l]; [inv_out; auto|]. inv_out. pose proof H as H0. inversion H0 as [|? ? He _]; subst.
      destruct (kcs_tied _ _ H _ _ E1 _ _ L) as [K|(x & I & K)]; [|right; eapply tied_child; [|eassumption]; auto].
      destruct (He _ _ _ E0 _ _ K) as [?|?]; auto. right. eapply tied_child; [|eassumption]. simpl. auto.
    - apply obind_some in E. destruct E as ((k', s2) & E & E').
      apply obind_some in E'. destruct E' as (s3 & E1 & E'). cbn in E'. injection E' as <- <-. simpl in L.
      destruct (Nat.eqb_spec id0 id) as [->|Ne].
      + inversion L; subst. right. exists i, e, s0, k', s2. split; [constructor|auto].
      + assert (Hs : lookup_nat id0 s2 = Some c0 \/ tied (EFetch id i e) id0 c0).
        { destruct i as [i|]; cbn in E1; inv_out; auto. destruct (H _ _ _ E0 _ _ L); auto.
          right. eapply tied_child; [|eassumption]. simpl. auto. }
        destruct Hs as [Hs|]; auto. destruct (IHe _ _ _ E _ _ Hs); auto. right. eapply tied_child; [|eassumption]. simpl.
        apply in_app_iff. simpl. auto.
  Qed.

  Lemma kc_stmt_tied : forall i s s', result (kc_stmt local i s) = Some s' ->
    forall id c, lookup_nat id s' = Some c -> lookup_nat id s = Some c \/ exists e, sourced i = true /\ In e (stmt_exprs i) /\ tied e id c.
  Proof.
    intros i s s' H id c L. destruct i; cbn [kc_stmt] in H; inv_out; auto.
    - destruct target as [|[|]]; inv_out;
        (destruct (kc_tied _ _ _ _ E0 _ _ L); auto; right; eexists; simpl; eauto).
    - destruct (kc_tied _ _ _ _ E _ _ L); auto. right. eexists. simpl. eauto.
  Qed.

  Lemma kc_stmts_tied : forall l s s', result (kc_stmts local l s) = Some (Some s') ->
    forall id c, lookup_nat id s' = Some c -> lookup_nat id s = Some c \/
      exists i e, In i l /\ sourced i = true /\ In e (stmt_exprs i) /\ tied e id c.
  Proof.
    induction l as [|i l IH]; intros s s' H id c L; cbn [kc_stmts] in H; inv_out; auto.
    destruct r; inv_out. destruct (IH _ _ H _ _ L) as [K|(j & e & I & K)]; [|right; exists j, e; simpl; tauto].
    destruct (kc_stmt_tied _ _ _ E _ _ K) as [?|(e & A)]; auto. right. exists i, e. simpl. tauto.
  Qed.

  Lemma kc_stmt_forged : forall i s s', result (kc_stmt local i s) = Some s' -> forged s -> forged s'.
  Proof.
    intros i s s' H F. destruct i; cbn [kc_stmt] in H; inv_out; auto.
    - destruct target as [|[|]]; inv_out; eapply kc_forged; eauto.
    - eapply kc_forged; eauto.
  Qed.

  (** Statements. *)
  Definition kc_stmt_ok (i : stmt) : Prop := exists s s', result (kc_stmt local i s) = Some s'.

  Lemma kc_stmts_none : forall l s s', result (kc_stmts local l s) = Some (Some s') ->
    Forall kc_stmt_ok l /\ (forged s -> forged s').
  Proof.
    induction l as [|i l IH]; intros s s' H; cbn [kc_stmts] in H; inv_out; [auto|].
    destruct r; inv_out. apply IH in H. destruct H as [H1 H2]. split; [constructor; auto; red; eauto|].
    intros F. apply H2. eapply kc_stmt_forged; eauto.
  Qed.

  Lemma kc_stmt_expr : forall i e, kc_stmt_ok i -> sourced i = true -> In e (stmt_exprs i) -> kc_ok e.
  Proof.
    intros i e (s & s' & H) S I. destruct i; try discriminate; destruct I as [<-|[]]; cbn [kc_stmt] in H; inv_out; red; eauto.
  Qed.
End Kc.

Lemma forge_pure : forall k, calls_of (forge_as_expr k) = [] /\ flips_of (forge_as_expr k) = [] /\
  reads_of (forge_as_expr k) = [] /\ pure_switches (forge_as_expr k).
Proof. destruct k; simpl; auto. Qed.

(** ** Type check: the variables are declared once. *)
Lemma lookup_none : forall {A} x (l : list (ident * A)), lookup x l = None <-> ~ In x (map fst l).
Proof.
  induction l as [|[y a] l IH]; simpl; [tauto|]. destruct (String.eqb_spec x y).
  - split; [discriminate|]. intros H. exfalso. auto.
  - rewrite IH. split; [intros H [K|K]; auto|tauto].
Qed.

Lemma tc_vars_ok : forall l vars vars', result (tc_vars l vars) = Some (true, vars') ->
  NoDup (map v_name l) /\ (forall v, In v l -> ~ In (v_name v) (map fst vars)) /\
  vars' = rev (map (fun v => (v_name v, v_base v)) l) ++ vars /\
  (forall v k x, In v l -> v_clk v = CExplicit k x ->
     In x (map v_name l) \/ In x (map fst vars)).
Proof.
  induction l as [|v l IH]; intros vars vars' H; cbn [tc_vars] in H.
  - inv_out. simpl. split; [constructor|]. split; [intros ? []|]. split; [auto|intros ? ? ? []].
  - apply obind_some in H. destruct H as (fresh & E & H).
    apply obind_some in H. destruct H as (ck & E0 & H). apply attempt_some in E0.
    apply obind_some in H. destruct H as ((rest, vs) & R & H). inversion H; subst vs.
    apply andb_prop in H1. destruct H1 as [H1 ->]. apply andb_prop in H1. destruct H1 as [-> Ok].
    destruct ck as [u|]; [|discriminate].
    apply IH in R. destruct R as (R1 & R2 & R3 & R4).
    assert (Fr : ~ In (v_name v) (map fst vars)).
    { destruct (lookup (v_name v) vars) eqn:L; [|apply lookup_none; auto]. cbn in E. discriminate. }
    split; [|split; [|split]].
    + simpl. constructor; auto. intros I. apply in_map_iff in I. destruct I as (w & Ew & I).
      apply (R2 w I). simpl. left. auto.
    + intros w [<-|I]; auto. intros J. apply (R2 w I). simpl. auto.
    + rewrite R3. simpl. rewrite <- app_assoc. auto.
    + intros w k x [<-|I] C.
      * right. rewrite C in E0. cbn in E0. destruct (lookup x vars) eqn:L; [|discriminate].
        destruct (in_dec string_dec x (map fst vars)); auto. apply lookup_none in n. congruence.
      * destruct (R4 _ _ _ I C) as [J|[J|J]]; simpl in *; auto.
Qed.

(** ** The passes, node by node. *)
Definition compiled_node (o : node_opts) (sn : snode) (nd : node) : Prop :=
  exists nd0 nd1 nd2 nd3 globals funs gens,
    result (tr_node o sn) = Some nd0 /\
    node_causality nd0 = inl nd1 /\
    result (tc_node globals funs o nd1) = Some (nd2, gens) /\
    result (kc_node nd2) = Some nd3 /\
    result (pos_node nd3) = Some nd.

Lemma omap_some : forall {A B} (f : A -> out B) l l', result (omap f l) = Some l' ->
  Forall2 (fun a b => result (f a) = Some b) l l'.
Proof.
  induction l as [|a l IH]; intros l' H; cbn [omap] in H; inv_out; constructor; auto.
Qed.

(** Same statement, up to the clock of an initialisation. *)
Inductive clocked_as : stmt -> stmt -> Prop :=
| ca_same : forall s, stmt_inits s = [] -> clocked_as s s
| ca_init : forall id v c k, clocked_as (SInit id v c) (SInit id v (Some (forge_as_expr k))).

Lemma fill_clocked : forall s i i', forged s -> result (fill_clock s i) = Some i' -> clocked_as i i'.
Proof.
  intros s i i' F H. destruct i; cbn [fill_clock] in H; inv_out; try (constructor; reflexivity).
  destruct (lookup_nat id s) eqn:L; inv_out. destruct (F _ _ L) as (k & ->). constructor.
Qed.

Lemma clocked_flat : forall {A} (f : stmt -> list A), (forall s s', clocked_as s s' -> f s' = f s) ->
  forall l l', Forall2 clocked_as l l' -> flat_map f l' = flat_map f l.
Proof. intros A f H. induction 1; simpl; auto. rewrite IHForall2, (H _ _ H0). auto. Qed.
Lemma clocked_flat2 : forall {A} (f : expr -> list A), (forall k, f (forge_as_expr k) = []) ->
  forall l l', Forall2 clocked_as l l' -> (forall s, In s l -> forall id v c, s = SInit id v c -> c = None) ->
  flat_map f (flat_map stmt_exprs l') = flat_map f (flat_map stmt_exprs l).
Proof.
  intros A f H. induction 1 as [|s s' l l' C F IH]; intros N; simpl; auto.
  rewrite !flat_map_app, IH by (intros; eapply N; simpl; eauto). f_equal.
  inversion C; subst; auto. specialize (N _ (or_introl eq_refl) _ _ _ eq_refl). subst. simpl. rewrite H. auto.
Qed.

Lemma fetches_reads : forall id e, fetches id e -> exists i n, In (id, (i, n)) (reads_of e).
Proof.
  induction 1; simpl; try (destruct IHfetches as (i' & n' & I')); eauto;
    try (exists i', n'; rewrite ?in_app_iff; auto; fail).
  exists i', n'. apply in_flat_map. eauto.
Qed.

Lemma inits_before_nth : forall l D,
  (forall k s, nth_error l k = Some s -> forall e id, In e (stmt_exprs s) -> fetches id e ->
     In id D \/ exists k' s', k' < k /\ nth_error l k' = Some s' /\ In id (stmt_inits s')) ->
  inits_before D l.
Proof.
  induction l as [|s l IH]; intros D H; simpl; auto. split.
  - intros e id I F. destruct (H 0 s eq_refl e id I F) as [K|(k' & s' & L & _)]; auto. lia.
  - apply IH. intros k s' E e id I F. rewrite in_app_iff.
    destruct (H (S k) s' E e id I F) as [K|(k' & s2 & L & E' & I')]; auto.
    destruct k' as [|k']; simpl in E'; [inversion E'; subst; auto|].
    right. exists k', s2. repeat split; auto. lia.
Qed.


Lemma nodup_flat : forall {A B} (f : A -> list B) l x a b, NoDup (flat_map f l) -> In a l -> In b l -> In x (f a) -> In x (f b) -> a = b.
Proof.
  induction l as [|c l IH]; intros x a b N Ia Ib Fa Fb; [destruct Ia|]. simpl in N.
  assert (D : forall y, In y (f c) -> ~ In y (flat_map f l)).
  { clear - N. induction (f c) as [|z m IHm]; simpl in *; [tauto|]. inversion N; subst. intros y [<-|I]; auto.
    intros J. apply H1. apply in_app_iff. auto. }
  assert (N2 : NoDup (flat_map f l)) by (clear - N; induction (f c); simpl in N; auto; inversion N; auto).
  destruct Ia as [<-|Ia], Ib as [<-|Ib]; auto.
  - exfalso. apply (D x Fa). apply in_flat_map. eauto.
  - exfalso. apply (D x Fb). apply in_flat_map. eauto.
  - eapply IH; eauto.
Qed.

Lemma perm_nodup_seq : forall l a n, Permutation l (seq a n) -> NoDup l.
Proof. intros. eapply Permutation_NoDup; [apply Permutation_sym; eauto|apply seq_NoDup]. Qed.

Lemma translated_init_none : forall u sn nd, translated u sn nd ->
  forall id v c, In (SInit id v c) (n_stmts nd) -> c = None.
Proof.
  intros u sn nd T id v c I.
  assert (R : In id (map fst (flat_map reads_of (flat_map stmt_exprs (n_stmts nd))))).
  { apply (Permutation_in _ (Permutation_sym (td_reads _ _ _ T))). apply (Permutation_in _ (td_inits _ _ _ T)).
    apply in_flat_map. exists (SInit id v c). simpl. auto. }
  apply in_map_iff in R. destruct R as ((id', (i, n)) & Eq & R). simpl in Eq. subst id'.
  destruct (td_fetch _ _ _ T _ _ _ R) as [_ J].
  assert (E : SInit id v c = SInit id i None); [|congruence].
  eapply nodup_flat with (f := stmt_inits) (x := id); [eapply perm_nodup_seq, (td_inits _ _ _ T)|eauto|eauto|simpl; auto|simpl; auto].
Qed.

(** What is kept from one pass to the next. *)
Record passed (o : node_opts) (sn : snode) (nd nd0 : node) (stmts : list stmt) : Prop := mkPassed {
  pa_translated : translated (o_universal o) sn nd0;
  pa_causality : node_causality nd0 = inl (mkNode (n_name nd0) (n_inputs nd0) (n_outputs nd0) (n_locals nd0) (n_blocks nd0) stmts (n_regs nd0) (n_flips nd0));
  pa_perm : Permutation stmts (n_stmts nd0);
  pa_clocked : Forall2 clocked_as stmts (n_stmts nd);
  pa_kc : Forall (kc_stmt_ok (rev (map (fun v => (v_name v, v_clk v)) (all_vars nd0)))) stmts;
  pa_name : n_name nd = n_name nd0;
  pa_inputs : map v_name (n_inputs nd) = map v_name (n_inputs nd0);
  pa_outputs : map v_name (n_outputs nd) = map v_name (n_outputs nd0);
  pa_locals : map v_name (n_locals nd) = map v_name (n_locals nd0);
  pa_blocks : n_blocks nd = n_blocks nd0;
  pa_regs : length (n_regs nd) = length (n_regs nd0);
  pa_flips : n_flips nd = n_flips nd0;
  pa_vars : NoDup (map v_name (all_vars nd0));
  pa_tied : forall id v c, In (SInit id v (Some c)) (n_stmts nd) -> exists i e,
    In i stmts /\ sourced i = true /\ In e (stmt_exprs i) /\ tied (rev (map (fun v => (v_name v, v_clk v)) (all_vars nd0))) e id c
}.

Lemma set_depth_name : forall m l, map v_name (map (set_depth m) l) = map v_name l.
Proof. intros. rewrite map_map. apply map_ext. auto. Qed.

Lemma compiled_passed_full : forall o sn nd, compiled_node o sn nd -> exists nd0 stmts, passed o sn nd nd0 stmts /\
  result (tr_node o sn) = Some nd0 /\ (exists u, result (each sig_implicit (n_inputs nd0 ++ n_outputs nd0)) = Some u) /\
  (exists m, result (pos_stmts (n_stmts nd) []) = Some m).
Proof.
  intros o sn nd (nd0 & nd1 & nd2 & nd3 & gl & fn & gens & H0 & H1 & H2 & H3 & H4).
  exists nd0, (n_stmts nd1). pose proof (tr_node_translated _ _ _ H0) as T.
  destruct (node_stmts_perm _ _ H1) as [P E1]. rewrite E1 in H1. 
  unfold tc_node in H2.
  apply obind_some in H2. destruct H2 as (u1 & X1 & H2).
  apply obind_some in H2. destruct H2 as (u2 & X2 & H2).
  apply obind_some in H2. destruct H2 as ((ok, vars) & X3 & H2).
  apply obind_some in H2. destruct H2 as (u3 & X4 & H2).
  destruct ok; [|discriminate]. apply tc_vars_ok in X3. destruct X3 as (V & _).
  inv_out. unfold kc_node in H3. rewrite E1 in H3, V. cbn [n_inputs n_outputs n_locals n_stmts n_name n_blocks n_regs n_flips] in H3, V.
  apply obind_some in H3. destruct H3 as (u4 & X5 & H3).
  apply obind_some in H3. destruct H3 as (ks & X6 & H3).
  apply obind_some in H3. destruct H3 as (ks' & X7 & H3). cbn in X7. subst ks.
  pose proof (kc_stmts_tied _ _ _ _ X6) as Ti.
  apply kc_stmts_none in X6. destruct X6 as [K F].
  apply obind_some in H3. destruct H3 as (stmts & X8 & H3). apply omap_some in X8.
  inv_out. unfold pos_node in H4. cbn [n_inputs n_outputs n_locals n_stmts n_name n_blocks n_regs n_flips] in H4. inv_out.
  split; [|split; [auto|split; [eauto|cbn; eauto]]].
  split; simpl; auto using set_depth_name.
  - clear - X8 F. assert (F' : forged ks') by (apply F; intros id c L; discriminate).
    induction X8; constructor; auto. eapply fill_clocked; eauto.
  - rewrite map_length, seq_length. auto.
  - intros id v c I. apply In_nth_error in I. destruct I as (k & I).
    assert (Lk : lookup_nat id ks' = Some c).
    { clear - X8 I. revert k I. induction X8 as [|s s' l l' A B IH]; intros [|k] I; simpl in I; try discriminate; eauto.
      inversion I; subst s'. destruct s as [t e|e|id0 v0 c0|id0 e]; cbn [fill_clock] in A; inv_out.
      destruct (lookup_nat id0 ks') eqn:L; inv_out. auto. }
    destruct (Ti _ _ Lk) as [H|H]; [discriminate|exact H].
Qed.
Lemma compiled_passed : forall o sn nd, compiled_node o sn nd -> exists nd0 stmts, passed o sn nd nd0 stmts.
Proof. intros o sn nd H. destruct (compiled_passed_full _ _ _ H) as (nd0 & stmts & P & _). eauto. Qed.

Lemma nodup_app_intro : forall {A} (l l' : list A), NoDup l -> NoDup l' -> (forall x, In x l -> ~ In x l') -> NoDup (l ++ l').
Proof.
  induction l as [|a l IH]; simpl; intros l' N N' D; auto. inversion N; subst. constructor.
  - rewrite in_app_iff. intros [I|I]; auto. eapply D; eauto.
  - apply IH; auto.
Qed.

Lemma flat_targets : forall l x, In (RLocal x) (flat_map stmt_provides l) <-> In x (flat_map stmt_targets l).
Proof.
  intros l x. rewrite !in_flat_map. split; intros (s & I & J); exists s; split; auto; destruct s; simpl in *; try tauto.
  - apply in_map_iff in J. destruct J as (y & E & J). congruence.
  - destruct J; [discriminate|tauto].
  - apply in_map. auto.
Qed.

Lemma nodup_targets : forall l, NoDup (flat_map stmt_provides l) -> NoDup (flat_map stmt_targets l).
Proof.
  induction l as [|s l IH]; simpl; intros N; [constructor|].
  assert (D : forall y, In y (stmt_provides s) -> ~ In y (flat_map stmt_provides l)).
  { clear - N. induction (stmt_provides s) as [|z m IHm]; simpl in *; [tauto|]. inversion N; subst. intros y [<-|I]; auto.
    intros J. apply H1. apply in_app_iff. auto. }
  assert (N1 : NoDup (stmt_provides s)) by (clear - N; induction (stmt_provides s); simpl in N; constructor; inversion N; subst; auto; intros J; apply H1; apply in_app_iff; auto).
  assert (N2 : NoDup (flat_map stmt_provides l)) by (clear - N; induction (stmt_provides s); simpl in N; auto; inversion N; auto).
  apply nodup_app_intro; auto.
  - destruct s; simpl in *; try constructor. eapply NoDup_map_inv; eauto.
  - intros x I J. apply (D (RLocal x)); [|apply flat_targets; auto]. destruct s; simpl in *; try tauto. apply in_map. auto.
Qed.

Lemma forall2_nth : forall {A B} (R : A -> B -> Prop) l l', Forall2 R l l' ->
  forall k b, nth_error l' k = Some b -> exists a, nth_error l k = Some a /\ R a b.
Proof. induction 1; intros [|k] c E; simpl in *; try discriminate; eauto. inversion E; subst; eauto. Qed.
Lemma forall2_nth_l : forall {A B} (R : A -> B -> Prop) l l', Forall2 R l l' ->
  forall k a, nth_error l k = Some a -> exists b, nth_error l' k = Some b /\ R a b.
Proof. induction 1; intros [|k] c E; simpl in *; try discriminate; eauto. inversion E; subst; eauto. Qed.

Lemma reads_fetches : forall e id i n, In (id, (i, n)) (reads_of e) -> fetches id e.
Proof.
  intros e. induction e using expr_ind'; intros id' i' n' I; simpl in I; try tauto; rewrite ?in_app_iff in I;
    repeat match goal with H : _ \/ _ |- _ => destruct H end; try (econstructor; eauto; fail).
  - apply in_flat_map in I. destruct I as (e & I & J). rewrite Forall_forall in H. eapply fe_tuple; eauto.
  - inversion H0; subst. constructor.
  - tauto.
Qed.

Theorem passed_wf : forall o sn nd nd0 stmts, passed o sn nd nd0 stmts -> node_wf nd.
Proof.
  intros o sn nd nd0 stmts Pa. destruct Pa as [T C P K Kc En Ei Eo El Eb Er Ef Nv].
  assert (NoC : forall s, In s stmts -> forall id v c, s = SInit id v c -> c = None).
  { intros s I id v c ->. eapply translated_init_none; eauto. eapply Permutation_in; eauto. }
  assert (Flat : forall {A} (f : expr -> list A), (forall k, f (forge_as_expr k) = []) ->
     Permutation (flat_map f (node_exprs nd)) (flat_map f (flat_map stmt_exprs (n_stmts nd0)))).
  { intros A f H. unfold node_exprs. rewrite (clocked_flat2 f H _ _ K NoC).
    apply Permutation_flat_map, Permutation_flat_map; auto. }
  assert (Flat2 : forall {A} (f : stmt -> list A), (forall s s', clocked_as s s' -> f s' = f s) ->
     Permutation (flat_map f (n_stmts nd)) (flat_map f (n_stmts nd0))).
  { intros A f H. rewrite (clocked_flat f H _ _ K). apply Permutation_flat_map; auto. }
  assert (Ci : forall s s', clocked_as s s' -> stmt_inits s' = stmt_inits s) by (intros s s' H; inversion H; auto).
  assert (Cu : forall s s', clocked_as s s' -> stmt_updates s' = stmt_updates s) by (intros s s' H; inversion H; auto).
  assert (Ct : forall s s', clocked_as s s' -> stmt_targets s' = stmt_targets s) by (intros s s' H; inversion H; auto).
  assert (Fc : forall k, calls_of (forge_as_expr k) = []) by (intros; apply forge_pure).
  assert (Ff : forall k, flips_of (forge_as_expr k) = []) by (intros; apply forge_pure).
  assert (Fr : forall k, reads_of (forge_as_expr k) = []) by (intros; apply forge_pure).
  assert (Pc : Permutation (flat_map calls_of (node_exprs nd)) (seq 0 (length (n_blocks nd)))).
  { rewrite Eb. eapply perm_trans; [apply Flat; auto|apply (td_calls _ _ _ T)]. }
  assert (Pf : Permutation (flat_map flips_of (node_exprs nd)) (seq 0 (n_flips nd))).
  { rewrite Ef. eapply perm_trans; [apply Flat; auto|apply (td_flips _ _ _ T)]. }
  pose proof (node_causality_inv _ _ C) as [Sc _]. simpl in Sc.
  assert (X : single_assignment stmt_provides (n_stmts nd0) (map (fun x => RLocal (v_name x)) (n_inputs nd0))).
  { refine (proj1 (proj1 (schedule_iff _ reference_eqb_spec _ _ _ _ _) _)). eauto. }
  destruct X as [Nd Dj].
  split.
  - rewrite Ei.
    assert (Pt := Flat2 _ stmt_targets Ct).
    apply nodup_app_intro.
    + unfold all_vars in Nv. rewrite map_app in Nv. destruct (nodup_str_app _ _ Nv) as (A1 & _ & _). exact A1.
    + eapply Permutation_NoDup; [apply Permutation_sym; exact Pt|]. apply nodup_targets; auto.
    + intros x I J. eapply (Dj (RLocal x)).
      * apply in_map_iff in I. destruct I as (v & <- & I). apply in_map_iff. eauto.
      * apply flat_targets. eapply Permutation_in; eauto.
  - eapply perm_nodup_seq; eauto.
  - eapply perm_nodup_seq; eauto.
  - intros id I. apply (Permutation_in _ Pc) in I. apply in_seq in I. lia.
  - intros id I. apply (Permutation_in _ Pf) in I. apply in_seq in I. lia.
  - apply Forall_forall. intros e I. unfold node_exprs in I. apply in_flat_map in I. destruct I as (s' & I & J).
    apply In_nth_error in I. destruct I as (k & I). destruct (forall2_nth _ _ _ K _ _ I) as (s & I' & Cs).
    apply nth_error_In in I'. rewrite Forall_forall in Kc.
    assert (Src : forall x, (exists e, In e (flat_map stmt_exprs (filter sourced (n_stmts nd0))) /\ occurs x e) -> pure_switches x).
    { intros x (e' & I1 & O). apply in_flat_map in I1. destruct I1 as (s1 & I1 & I2). apply filter_In in I1. destruct I1 as [I1 S1].
      apply (Permutation_in _ (Permutation_sym P)) in I1. eapply kc_pure, kc_occurs; eauto. eapply kc_stmt_expr; eauto. }
    pose proof (Permutation_in _ P I') as I0.
    destruct (sourced s') eqn:So.
    + apply Src. exists e. split; [|constructor]. apply in_flat_map. exists s'. split; auto.
      inversion Cs; subst; [|discriminate]. apply filter_In. auto.
    + destruct s' as [t e'|e'|id v c|id n]; try discriminate.
      * assert (exists k', c = Some (forge_as_expr k')) as (k' & ->) by (inversion Cs; subst; [discriminate|eauto]).
        simpl in J. destruct J as [<-|J]; [apply forge_pure|]. destruct v as [v|]; [|destruct J]. destruct J as [<-|[]].
        assert (exists c, In (SInit id (Some v) c) (n_stmts nd0)) as (c & I2) by (inversion Cs; subst; eauto).
        destruct (td_init_occurs _ _ _ T _ _ _ I2) as (n & e' & I3 & O). apply Src. exists e'. split; auto.
        eapply occurs_trans; [|exact O]. eapply occ_child; [|constructor]. simpl. auto.
      * inversion Cs; subst. simpl in J. destruct J as [<-|[]].
        destruct (td_update_occurs _ _ _ T _ _ I0) as (i & e' & I3 & O). apply Src. exists e'. split; auto.
        eapply occurs_trans; [|exact O]. eapply occ_child; [|constructor]. simpl. rewrite in_app_iff. simpl. auto.
  - eapply perm_nodup_seq. eapply perm_trans; [apply Flat2; auto|apply (td_inits _ _ _ T)].
  - eapply perm_nodup_seq. eapply perm_trans; [apply Flat2; auto|apply (td_updates _ _ _ T)].
  - apply inits_before_nth. intros k s' E' e id I Fe. right.
    destruct (forall2_nth _ _ _ K _ _ E') as (s & E & Cs).
    destruct (fetches_reads _ _ Fe) as (i & n & R).
    assert (I' : In e (stmt_exprs s)).
    { inversion Cs; subst; auto. simpl in I |- *. destruct I as [<-|I]; [rewrite Fr in R; destruct R|].
      apply in_app_iff. auto. }
    assert (In (SInit id i None) stmts) as J.
    { apply (Permutation_in _ (Permutation_sym P)). eapply (td_fetch _ _ _ T). apply in_flat_map. exists e. split; eauto.
      apply in_flat_map. exists s. split; auto. eapply Permutation_in; eauto. eapply nth_error_In; eauto. }
    apply In_nth_error in J. destruct J as (k' & J).
    destruct (node_order _ _ C k s E) as [_ O]. simpl in O.
    assert (L : k' < k).
    { eapply O; eauto. exists e. split; [|auto]. pose proof (NoC s (nth_error_In _ _ E)) as Nn.
      destruct s as [t x|x|id' v c|id' x]; simpl in I' |- *; try (destruct I' as [<-|[]]; reflexivity).
      rewrite (Nn _ _ _ eq_refl) in I'. simpl in I'. destruct v; [destruct I' as [<-|[]]; auto|destruct I']. }
    destruct (forall2_nth_l _ _ _ K _ _ J) as (s2 & J2 & Cs2). exists k', s2. split; auto. split; auto.
    rewrite (Ci _ _ Cs2). simpl. auto.
  - unfold all_vars in *. rewrite !map_app in *. rewrite Ei, Eo, El. auto.
Qed.
