(** Runs of a default-mode node: they succeed exactly on the streams for which
    the equations hold and everything evaluated has a value. *)
From Coq Require Import String List ZArith Bool Arith Lia Permutation.
From Verif Require Import Model.Base Model.Scalar Model.Value Model.History Model.Register Model.Ast Model.Interp
  Model.Graph Model.Causality Spec.StepSpec Spec.CausalitySpec Spec.CoreSem
  Proofs.AstInd Proofs.RuntimeProofs Proofs.InterpBasics Proofs.CoreProofs Proofs.CoreNode Proofs.Completeness.
Import ListNotations.

Notation nok := (fun _ _ : nat => @None val).

Section NodeRun.
  Variable mode : ovf.
  Variable glob : ident -> option scalar.
  Variable call : nat -> inst -> val -> res (val * inst).
  Variable nilout : nat -> res val.
  Variable sub0 : nat -> inst.
  Variable nd : node.
  Hypothesis W : node_wf nd.
  Hypothesis Pl : Forall plain (n_stmts nd).

  Section Trace.
    Variable rho : nat -> ident -> option nillable.

    Definition hist_inv (T : nat) (hists : list (ident * hist)) : Prop := forall x h, lookup x hists = Some h ->
      exists y d pushed, In y (all_vars nd) /\ v_name y = x /\ v_depth y <> 0 /\
        h = fold_left update pushed (empty_hist d) /\ length pushed = T /\
        forall k n, nth_error pushed k = Some n -> rho k x = Some n.
    Definition Inv (T : nat) (i : inst) : Prop := i_clock i = T /\ hist_inv T (i_hists i) /\
      invs mode glob call nilout sub0 rho nok (node_exprs nd) 0 T (mkEs (i_flips i) (i_subs i)).
    Definition instant (T : nat) (v o : val) : Prop :=
      inputs_are (rho T) (n_inputs nd) v /\
      (forall s, In s (n_stmts nd) -> stmt_holds mode glob rho nok (calls_op call sub0) (nilouts_op nilout) T s /\
                                       whole_stmt mode glob call nilout sub0 rho T s) /\
      outputs_are (rho T) (n_outputs nd) o.

    Lemma hist_inv_ok : forall T hs, hist_inv T hs -> forall x h d n, lookup x hs = Some h -> ago h (S d) = Ok n ->
      if T <=? d then n = Nil else rho (T - S d) x = Some n.
    Proof.
      intros T hs Hh x h d n L Ag. destruct (Hh _ _ L) as (y & d0 & pushed & _ & _ & _ & -> & Lp & Hp).
      rewrite ago_after_pushes in Ag. destruct (_ && _)%bool; [|discriminate]. inversion Ag as [Eq]. clear Ag.
      replace (S d - 1) with d in * by lia. destruct (Nat.leb_spec T d).
      - rewrite nth_overflow; auto. rewrite rev_length. lia.
      - assert (Dl : d < length pushed) by lia. rewrite ?Nat.sub_0_r, (rev_nth pushed Nil Dl). rewrite Lp.
        apply Hp. apply nth_error_nth'. lia.
    Qed.

    Lemma hist_inv_next : forall T st hs hs', hist_inv T hs -> update_vars st hs (all_vars nd) = Ok hs' -> agrees rho T st -> hist_inv (S T) hs'.
    Proof.
      intros T st hs hs' Hh B3 Ag x h L.
      destruct (in_dec string_dec x (map v_name (filter (fun y => negb (v_depth y =? 0)) (all_vars nd)))) as [J|J].
      - apply in_map_iff in J. destruct J as (y & <- & J). apply filter_In in J. destruct J as [J Nz].
        apply negb_true_iff, Nat.eqb_neq in Nz.
        destruct (update_vars_spec glob _ _ _ _ B3 (wf_vars _ W) y J Nz) as (n & Ln & Lh). rewrite L in Lh.
        destruct (lookup (v_name y) hs) as [h0|] eqn:L0; [|discriminate]. simpl in Lh. inversion Lh; subst h.
        destruct (Hh _ _ L0) as (y' & d & pushed & Jy & Ey & Nz' & -> & Lp & Hp).
        exists y, d, (pushed ++ [n]). split; auto. split; auto. split; auto. rewrite fold_left_app. split; auto.
        rewrite app_length. simpl. split; [lia|]. intros k m Hk.
        destruct (Nat.lt_ge_cases k (length pushed)) as [Lk|Gk].
        + rewrite nth_error_app1 in Hk by auto. auto.
        + rewrite nth_error_app2 in Hk by auto. destruct (k - length pushed) as [|q] eqn:Q; simpl in Hk; [|destruct q; discriminate].
          inversion Hk; subst. replace k with (length pushed) by lia. apply Ag. auto.
      - exfalso.
        assert (Dom : forall l hs hs', update_vars st hs l = Ok hs' -> forall x, lookup x hs = None -> lookup x hs' = None).
        { clear. induction l as [|y l IH]; intros hs hs' E x L; cbn [update_vars] in E; inv_ok; auto.
          apply (IH _ _ E). unfold update_var in E0. destruct (v_depth y =? 0); inv_ok; auto.
          rewrite lookup_map_upd, L. auto. }
        destruct (lookup x hs) as [h0|] eqn:L0.
        + destruct (Hh _ _ L0) as (y & d & pushed & Jy & Ey & Nz & _). apply J. apply in_map_iff. exists y. split; auto.
          apply filter_In. split; auto. apply negb_true_iff, Nat.eqb_neq. auto.
        + rewrite (Dom _ _ _ B3 _ L0) in L. discriminate.
    Qed.

    Lemma inv_start : forall regs0,
      Inv 0 (Inst 0 (init_hists nd) regs0 (repeat flip_default (n_flips nd)) (map sub0 (seq 0 (length (n_blocks nd))))).
    Proof.
      intros regs0. split; auto. split.
      - intros x h Lx. cbn [i_hists] in Lx. unfold init_hists in Lx. apply lookup_init_hists in Lx.
        destruct Lx as (y & d & J & Ey & Nz & ->). exists y, d, []. repeat split; auto.
        intros [|k] n H; discriminate.
      - assert (Ini : forall e lo,
          (forall id, In id (calls_of e) -> id < length (n_blocks nd)) ->
          (forall id, In id (flips_of e) -> id < n_flips nd) ->
          inv mode glob call nilout sub0 rho nok e lo 0
            (mkEs (repeat flip_default (n_flips nd)) (map sub0 (seq 0 (length (n_blocks nd)))))).
        { induction e using expr_ind'; intros lo Hc Hf; try (exact Logic.I).
          - apply inv_tuple. intros e J. rewrite Forall_forall in H. apply H; auto.
            + intros id K. apply Hc. simpl. apply in_flat_map. eauto.
            + intros id K. apply Hf. simpl. apply in_flat_map. eauto.
          - simpl in *. auto.
          - simpl in *. auto.
          - simpl in *. split; [apply IHe1|apply IHe2]; intros; try apply Hc; try apply Hf; apply in_app_iff; auto.
          - simpl in *. auto.
          - simpl in *. split; [apply IHe1|apply IHe2]; intros; try apply Hc; try apply Hf; apply in_app_iff; auto.
          - simpl in *. split; [apply IHe1|apply IHe2]; intros; try apply Hc; try apply Hf; apply in_app_iff; auto.
          - simpl in *. split; [intros _; apply IHe1|apply IHe2]; intros; try apply Hc; try apply Hf; apply in_app_iff; auto.
          - simpl in *. split; [apply IHe1|split; [apply IHe2|]]; try (intros; try apply Hc; try apply Hf; rewrite in_app_iff; auto; fail).
            exists flip_default. split.
            + rewrite nth_error_repeat; auto.
            + simpl. intros; lia.
          - simpl in *. split; [apply IHe1|split; [apply IHe2|apply IHe3]]; intros; try apply Hc; try apply Hf; rewrite !in_app_iff; auto.
          - simpl in *. split; [apply IHe1|split; [apply IHe2|apply IHe3]]; intros; try apply Hc; try apply Hf; rewrite !in_app_iff; auto.
          - cbn [inv]. simpl in Hc, Hf. split; [apply IHe; auto|].
            exists [], [], (sub0 id). split; [simpl; lia|]. split; [intros [|j] w Hj; discriminate|]. split; [reflexivity|].
            cbn [es_subs]. assert (Li : id < length (n_blocks nd)) by (apply Hc; auto).
            rewrite nth_error_map.
            rewrite (nth_error_nth' (seq 0 (length (n_blocks nd))) 0) by (rewrite seq_length; auto).
            rewrite seq_nth by auto. reflexivity. }
        intros e J. apply Ini.
        + intros id K. apply (wf_call_range _ W). apply in_flat_map. eauto.
        + intros id K. apply (wf_flip_range _ W). apply in_flat_map. eauto.
    Qed.

    Lemma targets_split : NoDup (map v_name (n_inputs nd)) /\ NoDup (flat_map stmt_targets (n_stmts nd)) /\
                  (forall x, In x (map v_name (n_inputs nd)) -> ~ In x (flat_map stmt_targets (n_stmts nd))).
    Proof. apply nodup_str_app. apply (wf_targets _ W). Qed.

    Lemma fit_start : forall T i st, Inv T i -> agrees rho T st ->
      fit mode glob call nilout sub0 rho T (n_stmts nd) (mkSs st (i_regs i) (mkEs (i_flips i) (i_subs i))).
    Proof.
      intros T i st (_ & _ & I) A. destruct targets_split as (_ & Nt & _). repeat split; auto; apply W.
    Qed.

    Lemma update_vars_okay : forall st l hs, okay (update_vars st hs l).
    Proof.
      induction l as [|x l IH]; intros hs; cbn [update_vars]; [left; eauto|].
      unfold update_var. destruct (v_depth x =? 0); [apply IH|].
      destruct (lookup (v_name x) st); cbn [of_option bind]; [apply IH|right; right; auto].
    Qed.
    Lemma read_outputs_okay : forall l st, okay (read_outputs l st).
    Proof.
      intros l st. unfold read_outputs.
      assert (G : okay (mapM (var_value st) l)).
      { induction l as [|x l IH]; cbn [mapM]; [left; eauto|]. unfold var_value at 1. destruct (lookup (v_name x) st); cbn [of_option bind]; [|right; right; auto].
        destruct IH as [(a & ->)|B]; [left; cbn; eauto|right; apply bad_bind; auto]. }
      destruct G as [(a & ->)|B]; [left; cbn; eauto|right; apply bad_bind; auto].
    Qed.
    Lemma outputs_fun : forall env l o o', outputs_are env l o -> outputs_are env l o' -> o = o'.
    Proof.
      intros env l o o' (ns & A & ->) (ns' & B & ->). f_equal. f_equal. revert ns' B.
      induction A; intros ns' B; inversion B; subst; auto. f_equal; [congruence|auto].
    Qed.

    Lemma step_complete : forall T i v o, Inv T i -> present v -> instant T v o ->
      (exists i', node_step mode glob call nilout nd i v = Ok (o, i') /\ Inv (S T) i') \/ bad (node_step mode glob call nilout nd i v).
    Proof.
      intros T [clk hs regs fl sb] v o I Pv (In1 & Hs & Out). unfold present in Pv. unfold node_step. rewrite Pv.
      assert (B : exists st0, bind_inputs (n_inputs nd) v = Ok st0 /\ agrees rho T st0).
      { unfold inputs_are in In1. unfold bind_inputs. destruct (n_inputs nd) as [|a l].
        - exists []. split; auto. intros x n L. discriminate.
        - destruct In1 as [|M]; [discriminate|]. destruct (bind_target_complete (rho T) _ v [] M) as (st & A & B). exists st. split; auto.
          intros x n L. destruct (B _ _ L); [discriminate|auto]. }
      destruct B as (st0 & E0 & A0). rewrite E0. cbn [bind].
      pose proof (fit_start T _ st0 I A0) as Ft. destruct I as (Ck & Hh & Iv). cbn [i_clock i_hists i_regs i_flips i_subs] in *. subst clk.
      destruct (execs_complete mode glob call nilout sub0 rho T hs (hist_inv_ok _ _ Hh) (n_stmts nd) _ Ft Hs) as [(ssf & E & Ag & Iv' & _)|B]; [|right; apply bad_bind; auto].
      rewrite E. cbn [bind]. destruct ssf as [st1 regs1 [fl1 sb1]]. cbn [ss_store ss_es] in *.
      destruct (update_vars_okay st1 (all_vars nd) hs) as [(hs' & Eu)|B]; [|right; apply bad_bind; auto]. rewrite Eu. cbn [bind].
      destruct (read_outputs_okay (n_outputs nd) st1) as [(o' & Eo)|B]; [|right; apply bad_bind; auto]. rewrite Eo. cbn [bind].
      left. assert (o' = o).
      { apply read_outputs_spec in Eo. apply (outputs_fun (rho T) (n_outputs nd)); auto. destruct Eo as (ns & F & ->). exists ns. split; auto.
        clear - F Ag. induction F; constructor; auto. }
      subst o'. eexists. split; [reflexivity|]. split; [reflexivity|]. split; [|exact Iv'].
      cbn [i_hists]. eapply hist_inv_next; eauto.
    Qed.

    Lemma step_keeps : forall T i v st0 ssf o i', Inv T i ->
      step_ok mode glob call nilout nd i v st0 ssf o i' -> agrees rho T (ss_store ssf) -> instant T v o /\ Inv (S T) i'.
    Proof.
      intros T i v st0 ssf o i' I (hs' & B1 & B2 & B3 & B4 & B5) Ag. destruct targets_split as (Wi & Wt & Wd).
      destruct (bind_inputs_spec _ _ _ B1 Wi) as [In1 In2].
      assert (Dm : forall x n, lookup x st0 = Some n -> ~ In x (flat_map stmt_targets (n_stmts nd))) by (intros x n L; apply Wd; eauto).
      assert (Keep : forall x n, lookup x st0 = Some n -> lookup x (ss_store ssf) = Some n).
      { intros x n L. rewrite (execs_store _ _ _ _ _ _ _ _ _ B2 Wt x); eauto. }
      assert (A0 : agrees rho T st0) by (intros x n L; apply Ag; auto).
      pose proof (fit_start T _ st0 I A0) as Ft. destruct I as (Ck & Hh & Iv). rewrite Ck in B2.
      destruct (execs_keeps mode glob call nilout sub0 rho T _ (hist_inv_ok _ _ Hh) (n_stmts nd) _ _ Ft B2 Ag Dm) as (X & Y & _).
      split.
      - split; [|split; auto].
        + destruct In1 as [In1|In1]; [left; auto|right]. eapply matches_mono; [|exact In1]. intros x n L. apply Ag. auto.
        + apply read_outputs_spec in B4. destruct B4 as (ns & F & ->). exists ns. split; auto. clear - F Ag. induction F; constructor; auto.
      - rewrite B5. split; [cbn; congruence|]. split; [eapply hist_inv_next; eauto|]. cbn. destruct (ss_es ssf). exact Y.
    Qed.

    Lemma run_complete : forall ins outs T i, Inv T i -> Forall present ins -> length outs = length ins ->
      (forall k v o, nth_error ins k = Some v -> nth_error outs k = Some o -> instant (T + k) v o) ->
      (exists i', iter (node_step mode glob call nilout nd) i ins = Ok (outs, i')) \/ bad (iter (node_step mode glob call nilout nd) i ins).
    Proof.
      induction ins as [|v ins IH]; intros [|o outs] T i I P L H; try discriminate; cbn [iter].
      - left. eauto.
      - inversion P; subst. destruct (step_complete T i v o I) as [(i1 & E & I1)|B]; auto.
        { specialize (H 0 v o eq_refl eq_refl). rewrite Nat.add_0_r in H. auto. }
        2: { right. apply bad_bind. auto. }
        rewrite E. cbn [bind]. destruct (IH outs (S T) i1 I1) as [(i2 & E2)|B]; auto.
        { intros k w o' A B. replace (S T + k) with (T + S k) by lia. apply H; auto. }
        + rewrite E2. cbn. left. eauto.
        + right. apply bad_bind. auto.
    Qed.
  End Trace.

  Lemma run_keeps : forall regs0 ins outs i',
    iter (node_step mode glob call nilout nd)
      (Inst 0 (init_hists nd) regs0 (repeat flip_default (n_flips nd)) (map sub0 (seq 0 (length (n_blocks nd))))) ins = Ok (outs, i') ->
    Forall present ins ->
    exists rho, length outs = length ins /\
      forall T v o, nth_error ins T = Some v -> nth_error outs T = Some o -> instant rho T v o.
  Proof.
    intros regs0 ins outs i' It P. destruct (iter_states _ _ _ _ _ _ _ _ _ It P) as (I & S0 & SS & A & B & Le & C).
    set (rho := fun T x => lookup x (ss_store (SS T))). exists rho. split; auto.
    assert (All : forall T, T <= length ins -> Inv rho T (I T)).
    { induction T as [|T IH]; intros L; [rewrite A; apply inv_start|].
      destruct (nth_error ins T) as [v|] eqn:Hv; [|apply nth_error_None in Hv; lia].
      destruct (C T v Hv) as (o & _ & St). apply (step_keeps rho T (I T) v (S0 T) (SS T) o (I (S T))); auto; [apply IH; lia|]. intros x n Lx. exact Lx. }
    intros T v o Hv Ho. destruct (C T v Hv) as (o' & Ho' & St). rewrite Ho in Ho'. inversion Ho'; subst o'.
    apply (step_keeps rho T (I T) v (S0 T) (SS T) o (I (S T))); auto; [|intros x n Lx; exact Lx].
    apply All. assert (T < length ins) by (apply nth_error_Some; congruence). lia.
  Qed.
End NodeRun.
