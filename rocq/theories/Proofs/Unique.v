(** The equations of an accepted default-mode program have at most one solution. *)
From Coq Require Import String List ZArith Bool Arith Lia Permutation.
From Verif Require Import Model.Base Model.Scalar Model.Value Model.Register Model.Ast Model.Errors Model.Interp Model.Options Model.Surface Model.Translate
  Model.Graph Model.Causality Model.Typecheck Model.Clockcheck Model.Positivity Model.Pipeline
  Spec.StepSpec Spec.CausalitySpec Spec.CoreSem Spec.SurfaceSem Spec.TranslateSpec Spec.ProgramSem Proofs.AstInd Proofs.OutBasics Proofs.InterpBasics Proofs.StepProofs
  Proofs.CoreProofs Proofs.CoreNode Proofs.CausalityProofs Proofs.TranslateSem Proofs.TranslateStruct Proofs.NodeWf Proofs.PipelineProofs Proofs.ProgramProofs.
Import ListNotations.

(** Two optional values do not contradict each other. *)
Definition compat {A} (a b : option A) : Prop := forall x y, a = Some x -> b = Some y -> x = y.

Lemma reads_occurs : forall x e, reads_now x e -> occurs (EVar x 0) e.
Proof.
  induction 1; try (eapply occ_child; [|eassumption]; simpl; auto; fail). constructor.
Qed.

Section Det.
  Variable mode : ovf.
  Variable glob : ident -> option scalar.
  Variables rho rho' : nat -> ident -> option nillable.
  Variables calls calls' : nat -> list val -> val -> Prop.
  Variables nilouts nilouts' : nat -> val -> Prop.
  Hypothesis Hc : forall id args v v', calls id args v -> calls' id args v' -> v = v'.
  Hypothesis Hn : forall id v v', nilouts id v -> nilouts' id v' -> v = v'.
  Notation nok := (fun _ _ : nat => @None val).
  Notation cs := (csem mode glob rho nok calls nilouts).
  Notation cs' := (csem mode glob rho' nok calls' nilouts').
  Notation css := (csems mode glob rho nok calls nilouts).
  Notation css' := (csems mode glob rho' nok calls' nilouts').

  Lemma args_det : forall lo e n args args',
    length args = length args' -> length args = n ->
    (forall j w, nth_error args j = Some w -> cs lo e (lo + j) w) ->
    (forall j w, nth_error args' j = Some w -> cs' lo e (lo + j) w) ->
    (forall j w w', j < n -> cs lo e (lo + j) w -> cs' lo e (lo + j) w' -> w = w') -> args = args'.
  Proof.
    intros lo e n args args' L Ln A B D.
    assert (G : forall j, nth_error args j = nth_error args' j).
    { intros j. destruct (nth_error args j) as [w|] eqn:E1, (nth_error args' j) as [w'|] eqn:E2; auto.
      - f_equal. apply (D j); auto. rewrite <- Ln. apply nth_error_Some. congruence.
      - exfalso. apply nth_error_None in E2. assert (j < length args) by (apply nth_error_Some; congruence). lia.
      - exfalso. apply nth_error_None in E1. assert (j < length args') by (apply nth_error_Some; congruence). lia. }
    clear - G. revert args' G. induction args as [|a args IH]; intros [|b args'] G; auto.
    - specialize (G 0). discriminate.
    - specialize (G 0). discriminate.
    - f_equal; [specialize (G 0); simpl in G; congruence|]. apply IH. intros j. apply (G (S j)).
  Qed.

  Notation mentions x e := (exists d, occurs (EVar x d) e).

  Lemma csem_det : forall e lo T v v', cs lo e T v -> cs' lo e T v' ->
    (forall x t, t < T -> mentions x e -> compat (rho t x) (rho' t x)) ->
    (forall x, reads_now x e -> compat (rho T x) (rho' T x)) -> v = v'.
  Proof.
    Local Ltac up P := let d0 := fresh in let O0 := fresh in let K0 := fresh in intros ? ? K0 [d0 O0]; apply P; [lia|]; exists d0; eapply occ_child; [|exact O0]; simpl; auto.
    Local Ltac one IH R c := eapply IH; eauto; [match goal with P : forall x t, t < _ -> _ |- _ => up P end|intros ? ?; apply R; apply c; auto].
    intros e. induction e using expr_ind'; intros lo T v v' A B P R.
    - rewrite csem_lit in *. congruence.
    - rewrite csem_var in *. destruct A as [(A1 & n & A2 & ->)|(A1 & ->)], B as [(B1 & n' & B2 & ->)|(B1 & ->)]; auto; try lia.
      f_equal. destruct d.
      + rewrite Nat.sub_0_r in *. eapply (R x); eauto. constructor.
      + eapply (P x (T - S d)); eauto; [lia|]. eexists; constructor.
    - rewrite csem_global in *. destruct A as (s & A & ->), B as (s' & B & ->). congruence.
    - rewrite csem_tuple in *. destruct A as (vs & A & ->), B as (vs' & B & ->). f_equal.
      assert (R' : forall e x, In e l -> reads_now x e -> compat (rho T x) (rho' T x)) by (intros e x I J; apply R; econstructor; eauto).
      assert (P' : forall e x t, In e l -> t < T -> mentions x e -> compat (rho t x) (rho' t x)).
      { intros e x t I L (d & O). apply P; auto. exists d. eapply occ_child; [|exact O]. simpl; auto. }
      clear R P. revert vs vs' A B. induction H as [|e l He _ IH]; intros vs vs' A B.
      + rewrite csems_nil in *. congruence.
      + rewrite csems_cons in *. destruct A as (a & as_ & -> & A1 & A2), B as (b & bs & -> & B1 & B2).
        f_equal.
        * eapply He; eauto.
          -- intros x t L. eapply P'; eauto. simpl; auto.
          -- intros x I. eapply R'; eauto. simpl; auto.
        * apply IH; auto.
          -- intros e' x I J. eapply R'; eauto. simpl; auto.
          -- intros e' x t I. apply P'. simpl; auto.
    - rewrite csem_pre in *. one IHe R rn_pre.
    - rewrite csem_paren in *. one IHe R rn_paren.
    - rewrite csem_bin in *. destruct A as (a & b & A1 & A2 & A3), B as (a' & b' & B1 & B2 & B3).
      assert (a = a') by one IHe1 R rn_bin1.
      assert (b = b') by one IHe2 R rn_bin2. congruence.
    - rewrite csem_un in *. destruct A as (a & A1 & A3), B as (a' & B1 & B3).
      assert (a = a') by one IHe R rn_un. congruence.
    - rewrite csem_cmp in *. destruct A as (a & b & A1 & A2 & A3), B as (a' & b' & B1 & B2 & B3).
      assert (a = a') by one IHe1 R rn_cmp1.
      assert (b = b') by one IHe2 R rn_cmp2. congruence.
    - rewrite csem_clock in *. destruct A as (a & b & A1 & A2 & A3), B as (a' & b' & B1 & B2 & B3).
      assert (a = a') by one IHe1 R rn_clk1.
      assert (b = b') by one IHe2 R rn_clk2. congruence.
    - rewrite csem_later in *. destruct A as [(L & A)|(L & A)], B as [(L' & B)|(L' & B)]; try lia.
      + one IHe1 R rn_later1.
      + one IHe2 R rn_later2.
    - rewrite csem_fetch in A. discriminate.
    - assert (R1 : forall x, reads_now x e1 -> compat (rho T x) (rho' T x)) by (intros x I; apply R; apply rn_flip1; auto).
      assert (R2 : forall x, reads_now x e2 -> compat (rho T x) (rho' T x)) by (intros x I; apply R; apply rn_flip2; auto).
      assert (P1 : forall x t, t < T -> mentions x e1 -> compat (rho t x) (rho' t x)) by up P.
      assert (P2 : forall x t, t < T -> mentions x e2 -> compat (rho t x) (rho' t x)) by up P.
      assert (Past : forall k w w', k < T -> cs lo e1 k w -> cs' lo e1 k w' -> w = w').
      { intros k w w' K X Y. eapply IHe1; eauto.
        - intros x t Kt. apply P1. lia.
        - intros x I. apply P1; auto. exists 0. apply reads_occurs. auto. }
      inversion A; subst; inversion B; subst;
        try (match goal with X : cs lo e1 T ?a, Y : cs' lo e1 T ?b |- _ => assert (a = b) by (eapply IHe1; eauto); subst end); try congruence.
      + match goal with X : forall k, lo <= k -> k < T -> exists w, cs lo e1 k w /\ _, K : cs' lo e1 ?k ?w |- _ =>
          destruct (X k) as (w' & X1 & X2); auto; assert (w' = w) by (eapply Past; eauto); congruence end.
      + match goal with X : forall k, lo <= k -> k < T -> exists w, cs' lo e1 k w /\ _, K : cs lo e1 ?k ?w |- _ =>
          destruct (X k) as (w' & X1 & X2); auto; assert (w = w') by (eapply Past; eauto); congruence end.
      + eapply IHe2; eauto.
    - rewrite csem_if in *. destruct A as (a & b & c & A1 & A2 & A3 & A4), B as (a' & b' & c' & B1 & B2 & B3 & B4).
      assert (a = a') by one IHe1 R rn_if1.
      assert (b = b') by one IHe2 R rn_if2.
      assert (c = c') by one IHe3 R rn_if3. congruence.
    - rewrite csem_merge in *. destruct A as (a & b & c & A1 & A2 & A3 & A4), B as (a' & b' & c' & B1 & B2 & B3 & B4).
      assert (a = a') by one IHe1 R rn_merge1.
      assert (b = b') by one IHe2 R rn_merge2.
      assert (c = c') by one IHe3 R rn_merge3. congruence.
    - rewrite csem_sub in *. destruct A as [(L & A)|(L & args & A1 & A2 & A3)], B as [(L' & B)|(L' & args' & B1 & B2 & B3)]; try lia.
      + eapply Hn; eauto.
      + assert (args = args').
        { eapply (args_det (Nat.max lo d) e (length args)); eauto; [congruence|].
          intros j w w' J X Y.
          assert (Jt : Nat.max lo d + j <= T) by lia.
          assert (P1 : forall x t, t < T -> mentions x e -> compat (rho t x) (rho' t x)) by up P.
          destruct (Nat.eq_dec (Nat.max lo d + j) T) as [Eq|Ne].
          - rewrite Eq in *. eapply IHe; eauto. intros x I. apply R. constructor; auto.
          - eapply IHe; eauto.
            + intros x t K. apply P1. lia.
            + intros x I. apply P1; [lia|]. exists 0. apply reads_occurs. auto. }
        subst. eapply Hc; eauto.
  Qed.
End Det.

Lemma matches_det : forall env env' t v, matches env t v -> matches env' t v ->
  forall x, In x (target_vars t) -> compat (env x) (env' x).
Proof.
  intros env env' t. induction t using vartuple_ind'; intros v A B y I; simpl in I.
  - destruct I as [<-|[]]. inversion A; inversion B; subst. intros a b E1 E2. congruence.
  - apply in_flat_map in I. destruct I as (t & I & J). rewrite Forall_forall in H.
    inversion A; subst; [destruct I| |].
    + inversion B; subst; [|simpl in *; lia]. destruct I as [<-|[]]. eapply H; eauto. simpl; auto.
    + inversion B; subst; simpl in *; try lia.
      assert (G : forall vs0, Forall2 (matches env) l vs0 -> Forall2 (matches env') l vs0 -> compat (env y) (env' y)); [|eauto].
      clear - H I J. intros vs0 X Y. revert vs0 X Y. induction l as [|t' l IH]; intros vs X Y; [destruct I|].
      inversion X; subst. inversion Y; subst. destruct I as [<-|I].
      * eapply H; eauto. simpl; auto.
      * eapply IH; eauto. intros z K. apply H. simpl; auto.
Qed.

Lemma forall2_length : forall {A B} (R : A -> B -> Prop) l l', Forall2 R l l' -> length l = length l'.
Proof. induction 1; simpl; auto. Qed.

Lemma map_vs_inj : forall ns ns', map VS ns = map VS ns' -> ns = ns'.
Proof. induction ns; intros [|] H; try discriminate; auto. inversion H. f_equal. auto. Qed.

Lemma row_det : forall env env' l v, row env l v -> row env' l v -> forall x, In x l -> compat (env x) (env' x).
Proof.
  intros env env' l v (ns & A & ->) (ns' & B & E) x I.
  assert (ns = ns').
  { assert (L : length ns = length ns') by (rewrite <- (forall2_length _ _ _ A); apply (forall2_length _ _ _ B)).
    destruct ns as [|a [|b ns]], ns' as [|a' [|b' ns']]; try discriminate; auto; simpl in E.
    - congruence.
    - inversion E. do 2 f_equal. apply map_vs_inj. auto. }
  subst ns'. clear E. revert B I. induction A; intros B I; [destruct I|]. inversion B; subst.
  destruct I as [<-|I]; [|auto]. intros p q X Y. congruence.
Qed.

Lemma row_fun : forall env env' l v v', row env l v -> row env' l v' -> (forall x, In x l -> compat (env x) (env' x)) -> v = v'.
Proof.
  intros env env' l v v' (ns & A & ->) (ns' & B & ->) C. do 2 f_equal.
  revert ns' B. induction A as [|x n l ns Ex A IH]; intros ns' B; inversion B; subst; auto.
  f_equal.
  - eapply (C x); eauto. simpl; auto.
  - apply IH; auto. intros z I. apply C. simpl; auto.
Qed.

Lemma kc_var : forall local x d, kc_ok local (EVar x d) -> In x (map fst local).
Proof.
  intros local x d (s & k & s' & H). cbn [kc] in H. destruct (lookup x local) eqn:E; [|discriminate].
  destruct (in_dec string_dec x (map fst local)) as [I|N]; auto. apply lookup_none in N. congruence.
Qed.

Section Unique.
  Variable mode : ovf.
  Variable glob : ident -> option scalar.
  Variables F F' : ident -> list val -> val -> Prop.
  Variables N N' : ident -> val -> Prop.
  Hypothesis HF : forall g args v v', F g args v -> F' g args v' -> v = v'.
  Hypothesis HN : forall g v v', N g v -> N' g v' -> v = v'.

  Lemma traces_det : forall o sn nd nd0 stmts, passed o sn nd nd0 stmts -> o_universal o = false ->
    forall rho rho' k,
    (forall T, T < k -> (forall i, In i (s_defs sn) -> sstmt_holds mode glob (node_vars sn) rho F N T i)) ->
    (forall T, T < k -> (forall i, In i (s_defs sn) -> sstmt_holds mode glob (node_vars sn) rho' F' N' T i)) ->
    (forall T, T < k -> forall x, In x (declared (s_inputs sn)) -> compat (rho T x) (rho' T x)) ->
    forall T, T < k -> forall x, In x (node_vars sn) -> compat (rho T x) (rho' T x).
  Proof.
    intros o sn nd nd0 stmts Pa U rho rho' k H H' Hin.
    pose proof (passed_names _ _ _ _ _ Pa) as (N1 & N2 & N3 & N4 & N5).
    pose proof Pa as [T0 C Pm K Kc En Ei Eo El Eb Er Ef Nv]. rewrite U in T0.
    set (blocks := n_blocks nd0).
    set (calls := fun (G : ident -> list val -> val -> Prop) id args v => exists g, nth_error blocks id = Some g /\ G g args v).
    set (nilouts := fun (G : ident -> val -> Prop) id v => exists g, nth_error blocks id = Some g /\ G g v).
    assert (Ag : forall G M, agree (calls G) (nilouts M) G M blocks).
    { intros G M id f E. unfold calls, nilouts. split; intros; (split; [intros (g & X & Y); congruence|eauto]). }
    set (nok := fun _ _ : nat => @None val).
    (* every scheduled equation holds for both traces *)
    assert (Hs : forall T, T < k -> forall i', In i' stmts -> sourced i' = true ->
       stmt_holds mode glob rho nok (calls F) (nilouts N) T i' /\ stmt_holds mode glob rho' nok (calls F') (nilouts N') T i').
    { intros T L i' I S. apply (Permutation_in _ Pm) in I.
      assert (I2 : In i' (filter sourced (n_stmts nd0))) by (apply filter_In; auto).
      destruct (forall2_in_r _ _ _ (td_sourced _ _ _ T0) _ I2) as (i & Ii & Tr). rewrite N5 in Tr.
      split; (eapply translates_holds; [exact Tr|apply Ag|]); auto. }
    assert (Dc : forall id args v v', calls F id args v -> calls F' id args v' -> v = v').
    { intros id args v v' (g & A & B) (g' & A' & B'). assert (g = g') by congruence. subst. eauto. }
    assert (Dn : forall id v v', nilouts N id v -> nilouts N' id v' -> v = v').
    { intros id v v' (g & A & B) (g' & A' & B'). assert (g = g') by congruence. subst. eauto. }
    destruct (node_definitions _ _ C) as [_ Df].
    pose proof (node_order _ _ C) as Ord. cbn [n_stmts] in Ord.
    intros T. induction T as [T IHT] using lt_wf_ind. intros L x Ix.
    assert (Decl : forall s e y d, In s stmts -> sourced s = true -> In e (stmt_exprs s) -> occurs (EVar y d) e -> In y (node_vars sn)).
    { intros s e y d I S Ie O. rewrite Forall_forall in Kc. pose proof (kc_var _ _ _ (kc_occurs _ _ _ O (kc_stmt_expr _ _ _ (Kc _ I) S Ie))) as J.
      rewrite map_rev, <- in_rev, map_map in J. rewrite <- N5. exact J. }
    assert (Def : forall z, In z (node_vars sn) -> ~ In z (declared (s_inputs sn)) ->
              exists n s, nth_error stmts n = Some s /\ stmt_count z s <> 0).
    { intros z Iz Ni.
      assert (Ex : exists w, In w (n_outputs nd0 ++ n_locals nd0) /\ v_name w = z).
      { rewrite <- N5 in Iz. unfold all_vars in Iz. apply in_map_iff in Iz. destruct Iz as (w & Ew & Iw).
        exists w. split; auto. apply in_app_iff in Iw. destruct Iw as [Iw|Iw]; auto.
        exfalso. apply Ni. rewrite <- N1, Ei. rewrite <- Ew. apply in_map. auto. }
      destruct Ex as (w & Iw & <-). specialize (Df _ Iw).
      assert (Ex : exists s, In s (n_stmts nd0) /\ stmt_count (v_name w) s <> 0).
      { clear - Df. induction (n_stmts nd0) as [|s l IH]; simpl in Df; [discriminate|].
        destruct (stmt_count (v_name w) s) eqn:E.
        - destruct (IH Df) as (s' & J & Q). exists s'. simpl. auto.
        - exists s. simpl. rewrite E. split; auto. }
      destruct Ex as (s & Is & Cs). apply (Permutation_in _ (Permutation_sym Pm)) in Is.
      apply In_nth_error in Is. destruct Is as (n & Is). eauto. }
    assert (Src : forall z s, stmt_count z s <> 0 -> sourced s = true) by (intros z s; destruct s; simpl; auto; congruence).
    assert (Step : forall n s, nth_error stmts n = Some s -> forall y, stmt_count y s <> 0 -> compat (rho T y) (rho' T y)).
    { intros n. induction n as [n IHn] using lt_wf_ind. intros s En0 y Cy. pose proof (Src _ _ Cy) as S.
      pose proof (nth_error_In _ _ En0) as Is.
      destruct (Hs T L s Is S) as [A B].
      destruct s as [t e| | |]; try (simpl in Cy; congruence).
      destruct A as (v & A & A'), B as (v' & B & B').
      assert (v = v').
      { eapply (csem_det mode glob rho rho' _ _ _ _ Dc Dn e 0 T v v' A B).
        - intros z t' Lt (d & O). apply IHT; auto; [lia|]. eapply Decl; eauto. simpl; auto.
        - intros z Rz. pose proof (reads_occurs _ _ Rz) as O.
          assert (Iz : In z (node_vars sn)) by (eapply Decl; eauto; simpl; auto).
          destruct (in_dec string_dec z (declared (s_inputs sn))) as [Ii|Ni]; [apply Hin; auto|].
          destruct (Def z Iz Ni) as (n' & s' & E' & C').
          eapply (IHn n'); eauto. destruct (Ord _ _ En0) as [Od _]. eapply Od; eauto. exists e. split; auto. }
      subst v'. apply (matches_det _ _ _ _ A' B'). simpl in Cy. rewrite target_count_vars in Cy.
      apply (count_occ_In string_dec). lia. }
    destruct (in_dec string_dec x (declared (s_inputs sn))) as [Ii|Ni]; [apply Hin; auto|].
    destruct (Def x Ix Ni) as (n & s & E & Cs). eauto.
  Qed.

  Lemma node_meaning_det : forall o sn nd, compiled_node o sn nd -> o_universal o = false ->
    forall ins outs outs', node_meaning mode glob F N sn ins outs -> node_meaning mode glob F' N' sn ins outs' -> outs = outs'.
  Proof.
    intros o sn nd C U ins outs outs' (L & rho & H) (L' & rho' & H').
    destruct (compiled_passed _ _ _ C) as (nd0 & stmts & Pa).
    assert (At : forall T, T < length ins -> exists v w w', nth_error ins T = Some v /\ nth_error outs T = Some w /\ nth_error outs' T = Some w').
    { intros T K. assert (A : nth_error ins T <> None) by (apply nth_error_Some; auto).
      assert (B : nth_error outs T <> None) by (apply nth_error_Some; lia).
      assert (B' : nth_error outs' T <> None) by (apply nth_error_Some; lia).
      destruct (nth_error ins T), (nth_error outs T), (nth_error outs' T); try congruence. eauto 10. }
    assert (G : forall T, T < length ins -> forall x, In x (node_vars sn) -> compat (rho T x) (rho' T x)).
    { eapply traces_det; eauto.
      - intros T K. destruct (At T K) as (v & w & w' & E1 & E2 & E3). apply (H _ _ _ E1 E2).
      - intros T K. destruct (At T K) as (v & w & w' & E1 & E2 & E3). apply (H' _ _ _ E1 E3).
      - intros T K x I. destruct (At T K) as (v & w & w' & E1 & E2 & E3).
        destruct (H _ _ _ E1 E2) as ([A|A] & _); [rewrite A in I; destruct I|].
        destruct (H' _ _ _ E1 E3) as ([B|B] & _); [rewrite B in I; destruct I|].
        eapply row_det; eauto. }
    apply nth_ext with (d := VS Nil) (d' := VS Nil); [congruence|].
    intros T K. destruct (At T) as (v & w & w' & E1 & E2 & E3); [lia|].
    rewrite (nth_error_nth _ _ _ E2), (nth_error_nth _ _ _ E3).
    destruct (H _ _ _ E1 E2) as (_ & _ & A). destruct (H' _ _ _ E1 E3) as (_ & _ & B).
    eapply row_fun; eauto. intros x I. apply G; [lia|]. unfold node_vars. rewrite !in_app_iff. auto.
  Qed.
End Unique.

Lemma source_node_in : forall p sn, In sn (source_nodes p) -> exists a, In (a, XNode sn) p.
Proof.
  intros p sn I. apply in_flat_map in I. destruct I as ((a, x) & I & J). destruct x; simpl in J; try tauto.
  destruct J as [<-|[]]. eauto.
Qed.

Lemma source_node_unique : forall p l, result (pipeline p) = Some l ->
  forall a b, In a (source_nodes p) -> In b (source_nodes p) -> s_name a = s_name b -> a = b.
Proof.
  intros p l H a b Ia Ib E. pose proof (pipeline_names _ _ H) as N. clear H.
  match type of N with NoDup ?x => assert (M : x = map s_name (source_nodes p)) end.
  { unfold source_nodes. clear. induction p as [|(a, x) p IH]; simpl; auto. rewrite map_app, IH. destruct x; auto. }
  rewrite M in N. clear M. induction (source_nodes p) as [|c m IH]; [destruct Ia|].
  simpl in N. inversion N; subst. simpl in Ia, Ib.
  destruct Ia as [->|Ia], Ib as [->|Ib]; auto.
  - exfalso. apply H1. rewrite E. apply in_map. auto.
  - exfalso. apply H1. rewrite <- E. apply in_map. auto.
Qed.

Lemma default_compiled : forall p l, result (pipeline p) = Some l ->
  (forall a sn, In (a, XNode sn) p -> ~ In "universal_pre"%string (map a_action a)) ->
  forall sn, In sn (source_nodes p) -> exists o nd, compiled_node o sn nd /\ o_universal o = false.
Proof.
  intros p l H D sn I. destruct (source_node_in _ _ I) as (a & Ia).
  destruct (pipeline_covers _ _ H _ _ Ia) as (d & o & nd & _ & W & Fo & C).
  exists o, nd. split; auto. rewrite (node_opts_universal _ _ _ W Fo). destruct (existsb is_universal a) eqn:E; auto. exfalso.
  apply existsb_exists in E. destruct E as (x & Ix & Ex). apply String.eqb_eq in Ex. apply (D _ _ Ia).
  rewrite <- Ex. apply in_map. auto.
Qed.

Theorem means_unique : forall mode glob p l, result (pipeline p) = Some l ->
  (forall a sn, In (a, XNode sn) p -> ~ In "universal_pre"%string (map a_action a)) ->
  forall f ins outs outs', means mode glob (source_nodes p) f ins outs -> means mode glob (source_nodes p) f ins outs' ->
  outs = outs'.
Proof.
  intros mode glob p l H D f ins outs outs' (n & A) (m & B).
  revert m f ins outs outs' A B. induction n as [|n IH]; intros m f ins outs outs' A B; [destruct A|].
  destruct m as [|m]; [destruct B|]. cbn [denotes] in A, B.
  destruct A as (sn & po & I & E & M & ->), B as (sn' & po' & I' & E' & M' & ->).
  assert (sn = sn') by (eapply source_node_unique; eauto; congruence). subst sn'.
  destruct (default_compiled _ _ H D _ I) as (o & nd & C & U).
  f_equal. eapply node_meaning_det; [| |exact C|exact U|exact M|exact M'].
  - intros g args v v' (os & X) (os' & Y). pose proof (IH _ _ _ _ _ X Y) as Z. apply app_inj_tail in Z. tauto.
  - intros g v v' (s1 & J1 & K1 & ->) (s2 & J2 & K2 & ->).
    assert (s1 = s2) by (eapply source_node_unique; eauto; congruence). congruence.
Qed.
