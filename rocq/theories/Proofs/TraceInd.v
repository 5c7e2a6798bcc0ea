(** Induction over the equations of an accepted default-mode node, in the order
    in which they are computed. *)
From Coq Require Import String List ZArith Bool Arith Lia Permutation.
From Verif Require Import Model.Base Model.Scalar Model.Value Model.Register Model.Ast Model.Errors Model.Interp Model.Options Model.Surface Model.Translate
  Model.Graph Model.Causality Model.Typecheck Model.Clockcheck Model.Positivity Model.Pipeline
  Spec.StepSpec Spec.CausalitySpec Spec.CoreSem Spec.SurfaceSem Spec.TranslateSpec Spec.ProgramSem Proofs.AstInd Proofs.OutBasics Proofs.InterpBasics Proofs.StepProofs
  Proofs.CoreProofs Proofs.CoreNode Proofs.CausalityProofs Proofs.TranslateSem Proofs.TranslateStruct Proofs.NodeWf Proofs.PipelineProofs Proofs.ProgramProofs Proofs.Unique.
Import ListNotations.

Section Local.
  Variable mode : ovf.
  Variable glob : ident -> option scalar.
  Variables rho rho' : nat -> ident -> option nillable.
  Variables calls : nat -> list val -> val -> Prop.
  Variables nilouts : nat -> val -> Prop.
  Notation nok := (fun _ _ : nat => @None val).
  Notation cs := (csem mode glob rho nok calls nilouts).
  Notation cs' := (csem mode glob rho' nok calls nilouts).
  Notation mentions x e := (exists d, occurs (EVar x d) e).

  (** The value of an expression depends on the variables it reads now, and on
      the past of those it mentions. *)
  Lemma csem_local : forall e lo T v, cs lo e T v ->
    (forall x t, t < T -> mentions x e -> rho t x = rho' t x) ->
    (forall x, reads_now x e -> rho T x = rho' T x) -> cs' lo e T v.
  Proof.
    Local Ltac up P := let d0 := fresh in let O0 := fresh in let K0 := fresh in intros ? ? K0 [d0 O0]; apply P; [lia|]; exists d0; eapply occ_child; [|exact O0]; simpl; auto.
    Local Ltac one IH R c := eapply IH; eauto; [match goal with P : forall x t, t < _ -> _ |- _ => up P end|intros ? ?; apply R; apply c; auto].
    intros e. induction e using expr_ind'; intros lo T v A P R.
    - rewrite csem_lit in *. auto.
    - rewrite csem_var in *. destruct A as [(A1 & n & A2 & ->)|(A1 & ->)]; [left|right; auto]. split; auto. exists n. split; auto.
      rewrite <- A2. symmetry. destruct d.
      + rewrite Nat.sub_0_r. apply R. constructor.
      + apply P; [lia|]. eexists; constructor.
    - rewrite csem_global in *. auto.
    - rewrite csem_tuple in *. destruct A as (vs & A & ->). exists vs. split; auto.
      assert (R' : forall e x, In e l -> reads_now x e -> rho T x = rho' T x) by (intros e x I J; apply R; econstructor; eauto).
      assert (P' : forall e x t, In e l -> t < T -> mentions x e -> rho t x = rho' t x).
      { intros e x t I L (d & O). apply P; auto. exists d. eapply occ_child; [|exact O]. simpl; auto. }
      clear R P. revert vs A. induction H as [|e l He _ IH]; intros vs A.
      + rewrite csems_nil in *. auto.
      + rewrite csems_cons in *. destruct A as (a & as_ & -> & A1 & A2). exists a, as_. split; auto. split.
        * eapply He; eauto.
          -- intros x t L. eapply P'; eauto. simpl; auto.
          -- intros x I. eapply R'; eauto. simpl; auto.
        * apply IH; auto.
          -- intros e' x I J. eapply R'; eauto. simpl; auto.
          -- intros e' x t I. apply P'. simpl; auto.
    - rewrite csem_pre in *. one IHe R rn_pre.
    - rewrite csem_paren in *. one IHe R rn_paren.
    - rewrite csem_bin in *. destruct A as (a & b & A1 & A2 & A3). exists a, b. split; [one IHe1 R rn_bin1|]. split; [one IHe2 R rn_bin2|auto].
    - rewrite csem_un in *. destruct A as (a & A1 & A3). exists a. split; [one IHe R rn_un|auto].
    - rewrite csem_cmp in *. destruct A as (a & b & A1 & A2 & A3). exists a, b. split; [one IHe1 R rn_cmp1|]. split; [one IHe2 R rn_cmp2|auto].
    - rewrite csem_clock in *. destruct A as (a & b & A1 & A2 & A3). exists a, b. split; [one IHe1 R rn_clk1|]. split; [one IHe2 R rn_clk2|auto].
    - rewrite csem_later in *. destruct A as [(L & A)|(L & A)]; [left|right]; split; auto.
      + one IHe1 R rn_later1.
      + one IHe2 R rn_later2.
    - rewrite csem_fetch in A. discriminate.
    - assert (R1 : forall x, reads_now x e1 -> rho T x = rho' T x) by (intros x I; apply R; apply rn_flip1; auto).
      assert (R2 : forall x, reads_now x e2 -> rho T x = rho' T x) by (intros x I; apply R; apply rn_flip2; auto).
      assert (P1 : forall x t, t < T -> mentions x e1 -> rho t x = rho' t x) by up P.
      assert (P2 : forall x t, t < T -> mentions x e2 -> rho t x = rho' t x) by up P.
      assert (Past : forall k w, k < T -> cs lo e1 k w -> cs' lo e1 k w).
      { intros k w K X. eapply IHe1; eauto.
        - intros x t Kt. apply P1. lia.
        - intros x I. apply P1; auto. exists 0. apply reads_occurs. auto. }
      inversion A; subst.
      + apply cs_flip_absent; auto.
      + apply cs_flip_first; auto. intros k L K.
        match goal with X : forall k, lo <= k -> k < T -> exists w, _ |- _ => destruct (X k L K) as (w & X1 & X2) end. exists w. auto.
      + eapply cs_flip_later; eauto.
    - rewrite csem_if in *. destruct A as (a & b & c & A1 & A2 & A3 & A4). exists a, b, c.
      split; [one IHe1 R rn_if1|]. split; [one IHe2 R rn_if2|]. split; [one IHe3 R rn_if3|auto].
    - rewrite csem_merge in *. destruct A as (a & b & c & A1 & A2 & A3 & A4). exists a, b, c.
      split; [one IHe1 R rn_merge1|]. split; [one IHe2 R rn_merge2|]. split; [one IHe3 R rn_merge3|auto].
    - rewrite csem_sub in *. destruct A as [(L & A)|(L & args & A1 & A2 & A3)]; [left; auto|right].
      split; auto. exists args. split; auto. split; auto. intros j w J. specialize (A2 _ _ J).
      assert (Jl : j < length args) by (apply nth_error_Some; congruence).
      assert (Jt : Nat.max lo d + j <= T) by lia.
      assert (P1 : forall x t, t < T -> mentions x e -> rho t x = rho' t x) by up P.
      destruct (Nat.eq_dec (Nat.max lo d + j) T) as [Eq|Ne].
      + rewrite Eq in *. eapply IHe; eauto. intros x I. apply R. constructor; auto.
      + eapply IHe; eauto.
        * intros x t K. apply P1. lia.
        * intros x I. apply P1; [lia|]. exists 0. apply reads_occurs. auto.
  Qed.
End Local.

Section TraceInd.
  Variable mode : ovf.
  Variable glob : ident -> option scalar.
  Variable F : ident -> list val -> val -> Prop.
  Variable N : ident -> val -> Prop.

  Lemma trace_ind : forall o sn nd nd0 stmts, passed o sn nd nd0 stmts -> o_universal o = false ->
    forall rho k (Q : nat -> ident -> Prop),
    (forall T, T < k -> (forall i, In i (s_defs sn) -> sstmt_holds mode glob (node_vars sn) rho F N T i)) ->
    (forall T, T < k -> forall x, In x (declared (s_inputs sn)) -> Q T x) ->
    (forall T rho2 t e v, T < k -> In (XDef t e) (s_defs sn) ->
       (forall t' x n, rho2 t' x = Some n -> t' <= T /\ In x (node_vars sn) /\ rho t' x = Some n /\ Q t' x) ->
       sem mode glob (node_vars sn) rho2 F N e (Z.of_nat T) v -> smatches (rho T) t v ->
       forall x, In x (target_vars (tr_target t)) -> Q T x) ->
    forall T, T < k -> forall x, In x (node_vars sn) -> Q T x.
  Proof.
    intros o sn nd nd0 stmts Pa U rho k Q H Hin Hstep.
    pose proof (passed_names _ _ _ _ _ Pa) as (N1 & N2 & N3 & N4 & N5).
    pose proof Pa as [T0 C Pm K Kc En Ei Eo El Eb Er Ef Nv]. rewrite U in T0.
    set (blocks := n_blocks nd0).
    set (calls := fun id args v => exists g, nth_error blocks id = Some g /\ F g args v).
    set (nilouts := fun id v => exists g, nth_error blocks id = Some g /\ N g v).
    assert (Ag : agree calls nilouts F N blocks).
    { intros id f E. unfold calls, nilouts. split; intros; (split; [intros (g & X & Y); congruence|eauto]). }
    set (nok := fun _ _ : nat => @None val).
    destruct (node_definitions _ _ C) as [_ Df].
    pose proof (node_order _ _ C) as Ord. cbn [n_stmts] in Ord.
    intros T. induction T as [T IHT] using lt_wf_ind. intros L x Ix.
    assert (Decl : forall s e y d, In s stmts -> sourced s = true -> In e (stmt_exprs s) -> occurs (EVar y d) e -> In y (node_vars sn)).
    { intros s e y d I S Ie O. rewrite Forall_forall in Kc. pose proof (kc_var _ _ _ (kc_occurs _ _ _ O (kc_stmt_expr _ _ _ (Kc _ I) S Ie))) as J.
      rewrite map_rev, <- in_rev, map_map in J. rewrite <- N5. exact J. }
    assert (Def : forall z, In z (node_vars sn) -> ~ In z (declared (s_inputs sn)) ->
              exists n s, nth_error stmts n = Some s /\ stmt_count z s <> 0).
    { intros z Iz Ni.
      assert (Ex : exists w, In w (n_outputs nd0 ++ n_locals nd0) /\ v_name w = z).
      { rewrite <- N5 in Iz. unfold all_vars in Iz. apply in_map_iff in Iz. destruct Iz as (w & Ew & Iw).
        exists w. split; auto. apply in_app_iff in Iw. destruct Iw as [Iw|Iw]; auto.
        exfalso. apply Ni. rewrite <- N1, Ei. rewrite <- Ew. apply in_map. auto. }
      destruct Ex as (w & Iw & <-). specialize (Df _ Iw).
      assert (Ex : exists s, In s (n_stmts nd0) /\ stmt_count (v_name w) s <> 0).
      { clear - Df. induction (n_stmts nd0) as [|s l IH]; simpl in Df; [discriminate|].
        destruct (stmt_count (v_name w) s) eqn:E.
        - destruct (IH Df) as (s' & J & Q). exists s'. simpl. auto.
        - exists s. simpl. rewrite E. split; auto. }
      destruct Ex as (s & Is & Cs). apply (Permutation_in _ (Permutation_sym Pm)) in Is.
      apply In_nth_error in Is. destruct Is as (n & Is). eauto. }
    assert (Src : forall z s, stmt_count z s <> 0 -> sourced s = true) by (intros z s; destruct s; simpl; auto; congruence).
    assert (Step : forall n s, nth_error stmts n = Some s -> forall y, stmt_count y s <> 0 -> Q T y).
    { intros n. induction n as [n IHn] using lt_wf_ind. intros s En0 y Cy. pose proof (Src _ _ Cy) as S.
      pose proof (nth_error_In _ _ En0) as Is.
      assert (Is0 : In s (filter sourced (n_stmts nd0))) by (apply filter_In; split; auto; apply (Permutation_in _ Pm); auto).
      destruct (forall2_in_r _ _ _ (td_sourced _ _ _ T0) _ Is0) as (i & Ii & Tr). rewrite N5 in Tr.
      destruct Tr as (s0 & s1 & e' & bl & Tr & Ebl).
      assert (A' : agree calls nilouts F N (t_blocks s1)).
      { intros id f E. apply Ag. unfold blocks. rewrite Ebl. rewrite nth_error_app1; auto. apply nth_error_Some. rewrite E. discriminate. }
      destruct i as [t e|e]; destruct Tr as [Tr ->]; [|simpl in Cy; congruence].
      destruct (H T L _ Ii) as (v & A & M).
      (* what is known when this equation is computed *)
      set (known := fun z => if in_dec string_dec z (declared (s_inputs sn)) then true
                    else existsb (fun s => negb (Nat.eqb (stmt_count z s) 0)) (firstn n stmts)).
      set (rho2 := fun t' z => if in_dec string_dec z (node_vars sn) then
                      if t' <? T then rho t' z else if (t' =? T) && known z then rho t' z else None else None).
      assert (Kn : forall z, known z = true -> Q T z).
      { intros z Kz. unfold known in Kz. destruct (in_dec string_dec z (declared (s_inputs sn))) as [I|I]; [apply Hin; auto|].
        apply existsb_exists in Kz. destruct Kz as (s' & I' & C'). apply negb_true_iff, Nat.eqb_neq in C'.
        apply In_nth_error in I'. destruct I' as (m & Em). assert (Lm : m < n).
        { assert (m < length (firstn n stmts)) by (apply nth_error_Some; congruence). rewrite firstn_length in *. lia. }
        assert (Em' : nth_error stmts m = Some s').
        { rewrite <- (firstn_skipn n stmts). rewrite nth_error_app1; auto. apply nth_error_Some. congruence. }
        eapply (IHn m Lm); eauto. }
      eapply (Hstep T rho2 t e v L Ii); [| |exact M|].
      - intros t' z w E. unfold rho2 in E. destruct (in_dec string_dec z (node_vars sn)) as [I|I]; [|discriminate].
        destruct (Nat.ltb_spec t' T) as [Lt|Ge].
        + split; [lia|]. split; auto. split; auto. apply IHT; auto; lia.
        + destruct (Nat.eqb_spec t' T) as [->|Ne]; [|discriminate]. cbn [andb] in E. destruct (known z) eqn:Kz; [|discriminate]. auto.
      - pose proof (preservation mode glob (node_vars sn) rho nok calls nilouts F N e 0 s0 e' s1 Tr A' 0 T v (le_n 0)) as P1.
        pose proof (preservation mode glob (node_vars sn) rho2 nok calls nilouts F N e 0 s0 e' s1 Tr A' 0 T v (le_n 0)) as P2.
        rewrite Z.sub_0_r in P1, P2. apply P2. apply P1 in A. eapply csem_local; [exact A| |].
        + intros z t' Lt (d & O). unfold rho2. destruct (in_dec string_dec z (node_vars sn)) as [I|I].
          * destruct (Nat.ltb_spec t' T); [auto|lia].
          * exfalso. apply I. eapply Decl; eauto. simpl; auto.
        + intros z Rz. pose proof (reads_occurs _ _ Rz) as O.
          assert (Iz : In z (node_vars sn)) by (eapply Decl; eauto; simpl; auto).
          assert (Kz : known z = true).
          { unfold known. destruct (in_dec string_dec z (declared (s_inputs sn))) as [I|I]; auto.
            destruct (Def z Iz I) as (n' & s' & E' & C'). apply existsb_exists. exists s'. split; [|apply negb_true_iff, Nat.eqb_neq; auto].
            assert (Ln : n' < n) by (destruct (Ord _ _ En0) as [Od _]; eapply Od; eauto; exists e'; split; auto).
            apply (nth_error_In _ n'). rewrite <- (firstn_skipn n stmts), nth_error_app1 in E'; auto.
            assert (n < length stmts) by (apply nth_error_Some; congruence). rewrite firstn_length. lia. }
          unfold rho2. destruct (in_dec string_dec z (node_vars sn)) as [I|I]; [|contradiction].
          destruct (T <? T); auto. rewrite Nat.eqb_refl, Kz. auto.
      - simpl in Cy. rewrite target_count_vars in Cy. apply (count_occ_In string_dec). lia. }
    destruct (in_dec string_dec x (declared (s_inputs sn))) as [Ii|Ni]; [apply Hin; auto|].
    destruct (Def x Ix Ni) as (n & s & E & Cs). eauto.
  Qed.
End TraceInd.
