(** From single statements to whole runs of a node. *)
From Coq Require Import String List ZArith Bool Arith Lia Permutation.
From Verif Require Import Model.Base Model.Scalar Model.Value Model.History Model.Register Model.Ast Model.Interp
  Model.Graph Model.Causality Spec.StepSpec Spec.CausalitySpec Spec.CoreSem
  Proofs.AstInd Proofs.RuntimeProofs Proofs.InterpBasics Proofs.CoreProofs.
Import ListNotations.

Definition node_exprs (nd : node) : list expr := flat_map stmt_exprs (n_stmts nd).

(** What the translation and the analyses guarantee about a node. *)
Record node_wf (nd : node) : Prop := mkWf {
  wf_targets : NoDup (map v_name (n_inputs nd) ++ flat_map stmt_targets (n_stmts nd));
  wf_calls : NoDup (flat_map calls_of (node_exprs nd));
  wf_flips : NoDup (flat_map flips_of (node_exprs nd));
  wf_call_range : forall id, In id (flat_map calls_of (node_exprs nd)) -> id < length (n_blocks nd);
  wf_flip_range : forall id, In id (flat_map flips_of (node_exprs nd)) -> id < n_flips nd;
  wf_switches : Forall pure_switches (node_exprs nd);
  wf_inits : NoDup (flat_map stmt_inits (n_stmts nd));
  wf_updates : NoDup (flat_map stmt_updates (n_stmts nd));
  wf_init_first : inits_before [] (n_stmts nd);
  wf_vars : NoDup (map v_name (all_vars nd))
}.

Section Node.
  Variable mode : ovf.
  Variable glob : ident -> option scalar.
  Variable call : nat -> inst -> val -> res (val * inst).
  Variable nilout : nat -> res val.
  Variable sub0 : nat -> inst.

  Section Trace.
    Variable rho : nat -> ident -> option nillable.
    Variable kappa : nat -> nat -> option val.
    Notation invs' := (invs mode glob call nilout sub0 rho kappa).
    Notation holds' := (stmt_holds mode glob rho kappa (calls_op call sub0) (nilouts_op nilout)).
    Notation effects' := (effects mode glob call nilout sub0 rho kappa).

    Lemma execs_sound : forall T hists,
      (forall x h d n, lookup x hists = Some h -> ago h (S d) = Ok n ->
        if T <=? d then n = Nil else rho (T - S d) x = Some n) ->
      forall l ss ssf D,
      execs mode glob T hists call nilout l ss = Ok ssf ->
      (forall x, rho T x = lookup x (ss_store ssf)) ->
      (forall id, kappa T id = option_map reg_get (nth_error (ss_regs ssf) id)) ->
      NoDup (flat_map stmt_targets l) ->
      (forall x n, lookup x (ss_store ss) = Some n -> ~ In x (flat_map stmt_targets l)) ->
      inits_before D l -> NoDup (flat_map stmt_inits l) ->
      (forall id, In id D -> ~ In id (flat_map stmt_inits l)) ->
      NoDup (flat_map stmt_updates l) ->
      invs' (flat_map stmt_exprs l) 0 T (ss_es ss) ->
      Forall pure_switches (flat_map stmt_exprs l) ->
      NoDup (flat_map calls_of (flat_map stmt_exprs l)) ->
      NoDup (flat_map flips_of (flat_map stmt_exprs l)) ->
      (forall s, In s l -> holds' T s) /\
      invs' (flat_map stmt_exprs l) 0 (S T) (ss_es ssf) /\
      framed (flat_map calls_of (flat_map stmt_exprs l)) (flat_map flips_of (flat_map stmt_exprs l)) (ss_es ss) (ss_es ssf) /\
      (forall id r0, nth_error (ss_regs ss) id = Some r0 -> exists rf effI effU,
         nth_error (ss_regs ssf) id = Some rf /\ reg_apply r0 effI effU = Ok rf /\ effects' T l id effI effU).
    Proof.
      intros T hists Hh. induction l as [|s l IH]; intros ss ssf D E Rf Kf Nt Dm Bf Ni Di Nu I P Nc Nf; cbn [execs] in E.
      - inv_ok. split; [intros s []|]. split; [intros e []|]. split; [apply framed_refl|].
        intros id r0 E. exists r0, None, None. split; auto. split; auto. repeat split; auto.
        + intros init c [].
        + intros e [].
      - apply bind_ok in E. destruct E as (ss1 & E1 & E). destruct Bf as [B1 B2].
        cbn [flat_map] in *. rewrite !flat_map_app in *.
        destruct (nodup_str_app _ _ Nt) as (Nt1 & Nt2 & Dt).
        destruct (nodup_app_disjoint _ _ Ni) as (Ni1 & Ni2 & Dni).
        destruct (nodup_app_disjoint _ _ Nu) as (Nu1 & Nu2 & Dnu).
        destruct (nodup_app_disjoint _ _ Nc) as (Nc1 & Nc2 & Dc).
        destruct (nodup_app_disjoint _ _ Nf) as (Nf1 & Nf2 & Df).
        apply Forall_app in P. destruct P as [P1 P2].
        assert (M1 : forall x n, lookup x (ss_store ss1) = Some n -> ~ In x (flat_map stmt_targets l)).
        { intros x n L J. destruct (in_dec string_dec x (stmt_targets s)) as [K|K].
          - eapply Dt; eauto.
          - rewrite (exec_store _ _ _ _ _ _ _ _ _ E1 Nt1 x K) in L. eapply Dm; eauto. apply in_app_iff. auto. }
        assert (R1 : forall x n, lookup x (ss_store ss1) = Some n -> rho T x = Some n).
        { intros x n L. rewrite Rf. rewrite (execs_store _ _ _ _ _ _ _ _ _ E Nt2 x); eauto. }
        assert (R0 : forall x n, lookup x (ss_store ss) = Some n -> rho T x = Some n).
        { intros x n L. apply R1. rewrite (exec_store _ _ _ _ _ _ _ _ _ E1 Nt1 x); auto. intros J. eapply Dm; eauto. apply in_app_iff. auto. }
        destruct (exec_sound mode glob call nilout sub0 rho kappa T hists Hh s ss ss1 E1 R0 R1) as (S1 & I1 & F1 & G1); auto.
        { intros e J id r Fe. pose proof (B1 _ _ J Fe) as Dd. specialize (Di id Dd). rewrite in_app_iff in Di. split; auto.
          intros Er. rewrite Kf. rewrite (execs_reg_get _ _ _ _ _ _ _ _ _ E id) by auto.
          rewrite (exec_reg_get _ _ _ _ _ _ _ _ _ E1 id) by auto. rewrite Er. auto. }
        { intros e J. apply I. apply in_app_iff. auto. }
        destruct (IH ss1 ssf (stmt_inits s ++ D) E) as (S2 & I2 & F2 & G2); auto.
        { intros id J K. apply in_app_iff in J. destruct J as [J|J].
          - eapply Dni; eauto.
          - eapply Di; eauto. apply in_app_iff. auto. }
        { assert (I0 : invs' (flat_map stmt_exprs l) 0 T (ss_es ss)) by (intros e J; apply I; apply in_app_iff; auto).
          eapply invs_frame; [exact F1|apply disjoint_sym; auto|apply disjoint_sym; auto|exact I0]. }
        split; [|split; [|split]].
        + intros s' [<-|J]; auto.
        + intros e J. apply in_app_iff in J. destruct J as [J|J]; [|apply I2; auto].
          apply (invs_frame mode glob call nilout sub0 rho kappa _ _ _ _ _ _ _ F2 Dc Df I1); auto.
        + eapply framed_trans; eauto.
        + intros id r0 Er. destruct (G1 _ _ Er) as (r1 & i1 & u1 & X1 & Y1 & (A1 & B1' & C1 & D1)).
          destruct (G2 _ _ X1) as (r2 & i2 & u2 & X2 & Y2 & (A2 & B2' & C2 & D2)).
          cbn [flat_map] in A1, B1'. rewrite app_nil_r in A1, B1'.
          exists r2, (match i1 with Some x => Some x | None => i2 end), (match u1 with Some x => Some x | None => u2 end).
          split; auto.
          assert (Ex1 : i1 <> None -> i2 = None).
          { intros H. apply A2. intros J. apply H. apply A1. intros K. eapply Dni; eauto. }
          assert (Ex2 : u1 <> None -> u2 = None).
          { intros H. apply B2'. intros J. apply H. apply B1'. intros K. eapply Dnu; eauto. }
          split.
          { destruct i1 as [[n vi]|].
            - rewrite Ex1 in Y2 by discriminate. unfold reg_apply in Y1, Y2 |- *. cbn [bind] in Y2.
              match type of Y1 with bind ?x _ = _ => destruct x as [q|] eqn:Q; cbn [bind] in *; [|discriminate] end.
              destruct u1 as [w|]; [|inversion Y1; subst; auto].
              rewrite Ex2 in Y2 by discriminate. congruence.
            - destruct u1 as [w|]; cbn [reg_apply bind] in Y1.
              + rewrite Ex2 in Y2 by discriminate. unfold reg_apply in Y1. cbn [bind] in Y1. destruct (same_shapeb w (r_inner r0)) eqn:Sh; [|discriminate]. inversion Y1; subst. apply reg_apply_sched_first; auto.
              + inversion Y1; subst; auto. }
          split; [|split; [|split]].
          * cbn [flat_map]. intros J. rewrite in_app_iff in J. rewrite A1 by auto. apply A2. auto.
          * cbn [flat_map]. intros J. rewrite in_app_iff in J. rewrite B1' by auto. apply B2'. auto.
          * intros init c [->|J].
            -- destruct (C1 init c (or_introl eq_refl)) as (c' & n & vi & -> & -> & Z). exists c', n, vi. auto.
            -- destruct (C2 init c J) as (c' & n & vi & -> & Eq & Z). exists c', n, vi. split; auto. split; auto.
               destruct i1; auto. rewrite Ex1 in Eq by discriminate. discriminate.
          * intros e [->|J].
            -- destruct (D1 e (or_introl eq_refl)) as (w & -> & Z). eauto.
            -- destruct (D2 e J) as (w & Eq & Z). exists w. split; auto.
               destruct u1; auto. rewrite Ex2 in Eq by discriminate. discriminate.
    Qed.
  End Trace.

  (** *** History buffers *)
  Lemma lookup_map_upd : forall x n y (hs : list (ident * hist)),
    lookup y (map (fun '(z, h) => (z, if String.eqb x z then update h n else h)) hs) =
    option_map (fun h => if String.eqb x y then update h n else h) (lookup y hs).
  Proof.
    induction hs as [|[z h] hs IH]; simpl; auto.
    destruct (String.eqb_spec y z); subst; auto.
  Qed.

  Lemma update_vars_other : forall st l hs hs', update_vars st hs l = Ok hs' ->
    forall x, ~ In x (map v_name l) -> lookup x hs' = lookup x hs.
  Proof.
    induction l as [|y l IH]; intros hs hs' E x J; cbn [update_vars] in E; inv_ok; auto.
    simpl in J. rewrite (IH _ _ E) by tauto. unfold update_var in E0. destruct (v_depth y =? 0); inv_ok; auto.
    rewrite lookup_map_upd. destruct (String.eqb_spec (v_name y) x); [subst; tauto|]. destruct (lookup x hs); auto.
  Qed.

  Lemma update_vars_spec : forall st l hs hs', update_vars st hs l = Ok hs' -> NoDup (map v_name l) ->
    forall x, In x l -> v_depth x <> 0 ->
      exists n, lookup (v_name x) st = Some n /\
        lookup (v_name x) hs' = option_map (fun h => update h n) (lookup (v_name x) hs).
  Proof.
    induction l as [|y l IH]; intros hs hs' E N x J Nz; cbn [update_vars] in E; inv_ok; [destruct J|].
    simpl in N. inversion N; subst. destruct J as [->|J].
    - unfold update_var in E0. destruct (Nat.eqb_spec (v_depth x) 0); [congruence|]. inv_ok.
      exists r0. split; auto. rewrite (update_vars_other _ _ _ _ E) by auto. rewrite lookup_map_upd, String.eqb_refl. auto.
    - destruct (IH _ _ E H2 x J Nz) as (n & A & B). exists n. split; auto. rewrite B. f_equal.
      unfold update_var in E0. destruct (v_depth y =? 0); inv_ok; auto.
      rewrite lookup_map_upd. destruct (String.eqb_spec (v_name y) (v_name x)) as [Eq|]; [|destruct (lookup (v_name x) hs); auto].
      exfalso. apply H1. rewrite Eq. apply in_map. auto.
  Qed.

  Lemma lookup_init_hists : forall l x h,
    lookup x (flat_map (fun x => match v_depth x with 0 => [] | S d => [(v_name x, empty_hist d)] end) l) = Some h ->
    exists y d, In y l /\ v_name y = x /\ v_depth y <> 0 /\ h = empty_hist d.
  Proof.
    induction l as [|y l IH]; intros x h E; simpl in E; [discriminate|].
    destruct (v_depth y) as [|d] eqn:Dy; simpl in E.
    - destruct (IH _ _ E) as (z & d & A & B). exists z, d. split; [right; auto|auto].
    - destruct (String.eqb_spec x (v_name y)).
      + inversion E; subst. exists y, d. split; [left; auto|]. split; auto. split; auto. congruence.
      + destruct (IH _ _ E) as (z & d' & A & B). exists z, d'. split; [right; auto|auto].
  Qed.

  (** *** Runs *)
  Definition present (v : val) : Prop := first_is_nil v = false.

  Definition step_ok (nd : node) (i : inst) (v : val) (st0 : store) (ssf : sstate) (o : val) (i' : inst) : Prop :=
    exists hists',
    bind_inputs (n_inputs nd) v = Ok st0 /\
    execs mode glob (i_clock i) (i_hists i) call nilout (n_stmts nd)
      (mkSs st0 (i_regs i) (mkEs (i_flips i) (i_subs i))) = Ok ssf /\
    update_vars (ss_store ssf) (i_hists i) (all_vars nd) = Ok hists' /\
    read_outputs (n_outputs nd) (ss_store ssf) = Ok o /\
    i' = Inst (S (i_clock i)) hists' (map reg_commit (ss_regs ssf)) (es_flips (ss_es ssf)) (es_subs (ss_es ssf)).

  Lemma node_step_inv : forall nd i v o i', present v ->
    node_step mode glob call nilout nd i v = Ok (o, i') ->
    exists st0 ssf, step_ok nd i v st0 ssf o i'.
  Proof.
    intros nd [c h r f s] v o i' Pv E. unfold node_step in E. unfold present in Pv. rewrite Pv in E.
    inv_ok. destruct r1 as [st1 regs1 [fl1 sb1]]. inv_ok.
    eexists _, (mkSs st1 regs1 (mkEs fl1 sb1)). eexists. cbn. eauto 10.
  Qed.

  Lemma iter_states : forall nd ins i outs i',
    iter (node_step mode glob call nilout nd) i ins = Ok (outs, i') -> Forall present ins ->
    exists (I : nat -> inst) (S0 : nat -> store) (SS : nat -> sstate),
      I 0 = i /\ I (length ins) = i' /\ length outs = length ins /\
      forall T v, nth_error ins T = Some v -> exists o, nth_error outs T = Some o /\
        step_ok nd (I T) v (S0 T) (SS T) o (I (S T)).
  Proof.
    intros nd. induction ins as [|v ins IH]; intros i outs i' E P; cbn [iter] in E.
    - inv_ok. exists (fun _ => i'), (fun _ => []), (fun _ => mkSs [] [] (mkEs [] [])). simpl. repeat split; auto.
      intros [|T] v H; discriminate.
    - inv_ok. inversion P; subst. destruct (IH _ _ _ E1 H2) as (I & S0 & SS & A & B & Le & C).
      destruct (node_step_inv _ _ _ _ _ H1 E0) as (st0 & ssf & St).
      exists (fun T => match T with 0 => i | S T => I T end),
             (fun T => match T with 0 => st0 | S T => S0 T end),
             (fun T => match T with 0 => ssf | S T => SS T end).
      simpl. split; auto. split; auto. split; auto.
      intros [|T] w H; simpl in H.
      + inversion H; subst. exists v0. split; [reflexivity|]. exact St.
      + simpl. apply C. auto.
  Qed.

  Lemma mapM_length : forall {A B} (f : A -> res B) l bs, mapM f l = Ok bs -> length bs = length l.
  Proof. induction l as [|a l IH]; intros bs E; cbn [mapM] in E; inv_ok; [auto|]. simpl. f_equal. eauto. Qed.

  Lemma mapM_nth : forall {A B} (f : A -> res B) l bs n a, mapM f l = Ok bs -> nth_error l n = Some a ->
    exists b, f a = Ok b /\ nth_error bs n = Some b.
  Proof.
    induction l as [|a l IH]; intros bs n x E H; cbn [mapM] in E; inv_ok; destruct n; simpl in H; try discriminate.
    - inversion H; subst. exists r. auto.
    - simpl. eapply IH; eauto.
  Qed.

  Lemma read_outputs_spec : forall l st o, read_outputs l st = Ok o -> outputs_are (fun x => lookup x st) l o.
  Proof.
    intros l st o E. unfold read_outputs in E. inv_ok. unfold outputs_are.
    assert (G : exists ns, Forall2 (fun x n => lookup (v_name x) st = Some n) l ns /\ r = map VS ns).
    { revert r E0. induction l as [|x l IH]; intros r E; cbn [mapM] in E; inv_ok.
      - exists []. split; constructor.
      - destruct (IH _ E1) as (ns & A & ->). unfold var_value in E0. inv_ok. eexists (_ :: ns). split; [constructor; eauto|reflexivity]. }
    destruct G as (ns & A & ->). eauto.
  Qed.

  Lemma bind_inputs_spec : forall l v st, bind_inputs l v = Ok st -> NoDup (map v_name l) ->
    (l = [] \/ matches (fun x => lookup x st) (VTMult (map (fun x => VTSingle (v_name x)) l)) v) /\
    (forall x n, lookup x st = Some n -> In x (map v_name l)).
  Proof.
    intros l v st E N. unfold bind_inputs in E.
    assert (Tv : target_vars (VTMult (map (fun x => VTSingle (v_name x)) l)) = map v_name l).
    { simpl. clear. induction l; simpl; congruence. }
    destruct l as [|a l].
    - inv_ok. split; [left; auto|]. intros x n H. discriminate.
    - destruct (bind_target_spec _ _ _ _ E) as [A B]; [rewrite Tv; auto|].
      split; [right; auto|]. intros x n H. destruct (in_dec string_dec x (map v_name (a :: l))) as [J|J]; auto.
      rewrite A in H; [discriminate|]. rewrite Tv. auto.
  Qed.

  (** The run of a node satisfies its equations. *)
  Theorem node_sound : forall nd regs0 i0 ins outs i',
    node_wf nd ->
    i0 = Inst 0 (init_hists nd) regs0 (repeat flip_default (n_flips nd)) (map sub0 (seq 0 (length (n_blocks nd)))) ->
    iter (node_step mode glob call nilout nd) i0 ins = Ok (outs, i') ->
    Forall present ins ->
    exists (rho : nat -> ident -> option nillable) (kappa : nat -> nat -> option val),
      length outs = length ins /\
      (forall T v, nth_error ins T = Some v ->
        inputs_are (rho T) (n_inputs nd) v /\
        (forall s, In s (n_stmts nd) -> stmt_holds mode glob rho kappa (calls_op call sub0) (nilouts_op nilout) T s) /\
        exists o, nth_error outs T = Some o /\ outputs_are (rho T) (n_outputs nd) o) /\
      (forall id shape init clk next,
        nth_error regs0 id = Some (reg_default shape) ->
        In (SInit id init (Some clk)) (n_stmts nd) -> In (SUpdate id next) (n_stmts nd) ->
        register_holds mode glob rho kappa (calls_op call sub0) (nilouts_op nilout) (length ins) shape id init clk next) /\
      exists I : nat -> inst, I 0 = i0 /\
        forall T v, nth_error ins T = Some v -> exists st0 ssf o, nth_error outs T = Some o /\
          step_ok nd (I T) v st0 ssf o (I (S T)) /\ i_clock (I T) = T /\ (forall x, rho T x = lookup x (ss_store ssf)).
  Proof.
    intros nd regs0 i0 ins outs i' W Hi It P.
    destruct (iter_states _ _ _ _ _ It P) as (I & S0 & SS & A & B & Le & C). subst i0.
    set (rho := fun T x => lookup x (ss_store (SS T))).
    set (kappa := fun T id => option_map reg_get (nth_error (ss_regs (SS T)) id)).
    exists rho, kappa.
    pose (hist_inv := fun T => forall x h, lookup x (i_hists (I T)) = Some h ->
      exists y d pushed, In y (all_vars nd) /\ v_name y = x /\ v_depth y <> 0 /\
        h = fold_left update pushed (empty_hist d) /\ length pushed = T /\
        forall k n, nth_error pushed k = Some n -> rho k x = Some n).
    assert (wfi : NoDup (map v_name (n_inputs nd)) /\ NoDup (flat_map stmt_targets (n_stmts nd)) /\
                  (forall x, In x (map v_name (n_inputs nd)) -> ~ In x (flat_map stmt_targets (n_stmts nd)))).
    { apply nodup_str_app. apply (wf_targets _ W). }
    destruct wfi as (Wi & Wt & Wd).
    assert (Main : forall T v, nth_error ins T = Some v ->
      i_clock (I T) = T -> hist_inv T ->
      invs mode glob call nilout sub0 rho kappa (node_exprs nd) 0 T (mkEs (i_flips (I T)) (i_subs (I T))) ->
      i_clock (I (S T)) = S T /\ hist_inv (S T) /\
      invs mode glob call nilout sub0 rho kappa (node_exprs nd) 0 (S T) (mkEs (i_flips (I (S T))) (i_subs (I (S T)))) /\
      inputs_are (rho T) (n_inputs nd) v /\
      (forall s, In s (n_stmts nd) -> stmt_holds mode glob rho kappa (calls_op call sub0) (nilouts_op nilout) T s) /\
      (exists o, nth_error outs T = Some o /\ outputs_are (rho T) (n_outputs nd) o) /\
      (forall id r0, nth_error (i_regs (I T)) id = Some r0 -> exists rf effI effU,
         nth_error (i_regs (I (S T))) id = Some (reg_commit rf) /\ kappa T id = Some (reg_get rf) /\
         reg_apply r0 effI effU = Ok rf /\ effects mode glob call nilout sub0 rho kappa T (n_stmts nd) id effI effU)).
    { intros T v Hv Ck Hh Iv. destruct (C T v Hv) as (o & Ho & hists' & B1 & B2 & B3 & B4 & B5).
      destruct (bind_inputs_spec _ _ _ B1 Wi) as [In1 In2].
      rewrite Ck in B2.
      assert (Hok : forall x h d n, lookup x (i_hists (I T)) = Some h -> ago h (S d) = Ok n ->
        if T <=? d then n = Nil else rho (T - S d) x = Some n).
      { intros x h d n L Ag. destruct (Hh _ _ L) as (y & d0 & pushed & _ & _ & _ & -> & Lp & Hp).
        rewrite ago_after_pushes in Ag. destruct (_ && _)%bool; [|discriminate]. inversion Ag as [Eq]. clear Ag.
        replace (S d - 1) with d in * by lia. destruct (Nat.leb_spec T d).
        - rewrite nth_overflow; auto. rewrite rev_length. lia.
        - assert (Dl : d < length pushed) by lia. rewrite ?Nat.sub_0_r, (rev_nth pushed Nil Dl). rewrite Lp.
          apply Hp. apply nth_error_nth'. lia. }
      destruct (execs_sound rho kappa T (i_hists (I T)) Hok (n_stmts nd) _ _ [] B2) as (X1 & X2 & X3 & X4);
        try (apply W); auto.
      { intros x n L J. apply In2 in L. eapply Wd; eauto. }
      split; [rewrite B5; simpl; congruence|]. split; [|split; [|split; [|split; [|split]]]].
      - intros x h L. rewrite B5 in L. cbn [i_hists] in L.
        destruct (in_dec string_dec x (map v_name (filter (fun y => negb (v_depth y =? 0)) (all_vars nd)))) as [J|J].
        + apply in_map_iff in J. destruct J as (y & <- & J). apply filter_In in J. destruct J as [J Nz].
          apply negb_true_iff, Nat.eqb_neq in Nz.
          destruct (update_vars_spec _ _ _ _ B3 (wf_vars _ W) y J Nz) as (n & Ln & Lh). rewrite L in Lh.
          destruct (lookup (v_name y) (i_hists (I T))) as [h0|] eqn:L0; [|discriminate]. simpl in Lh. inversion Lh; subst h.
          destruct (Hh _ _ L0) as (y' & d & pushed & Jy & Ey & Nz' & -> & Lp & Hp).
          exists y, d, (pushed ++ [n]). split; auto. split; auto. split; auto. rewrite fold_left_app. split; auto.
          rewrite app_length. simpl. split; [lia|]. intros k m Hk.
          destruct (Nat.lt_ge_cases k (length pushed)) as [Lk|Gk].
          * rewrite nth_error_app1 in Hk by auto. auto.
          * rewrite nth_error_app2 in Hk by auto. destruct (k - length pushed) as [|q] eqn:Q; simpl in Hk; [|destruct q; discriminate].
            inversion Hk; subst. replace k with (length pushed) by lia. unfold rho. auto.
        + exfalso. 
          assert (Dom : forall l hs hs', update_vars (ss_store (SS T)) hs l = Ok hs' -> forall x, lookup x hs = None -> lookup x hs' = None).
          { clear. induction l as [|y l IH]; intros hs hs' E x L; cbn [update_vars] in E; inv_ok; auto.
            apply (IH _ _ E). unfold update_var in E0. destruct (v_depth y =? 0); inv_ok; auto.
            rewrite lookup_map_upd, L. auto. }
          destruct (lookup x (i_hists (I T))) as [h0|] eqn:L0.
          * destruct (Hh _ _ L0) as (y & d & pushed & Jy & Ey & Nz & _). apply J. apply in_map_iff. exists y. split; auto.
            apply filter_In. split; auto. apply negb_true_iff, Nat.eqb_neq. auto.
          * rewrite (Dom _ _ _ B3 _ L0) in L. discriminate.
      - rewrite B5. simpl. destruct (ss_es (SS T)). exact X2.
      - destruct In1 as [In1|In1]; [left; auto|right]. eapply matches_mono; [|exact In1].
        intros x n L. unfold rho. rewrite (execs_store _ _ _ _ _ _ _ _ _ B2 Wt x); auto.
        intros J. apply In2 in L. eapply Wd; eauto.
      - exact X1.
      - exists o. split; auto. apply read_outputs_spec. auto.
      - intros id r0 Er. destruct (X4 id r0 Er) as (rf & effI & effU & Y1 & Y2 & Y3).
        exists rf, effI, effU. split; [|split; [|split; auto]].
        + rewrite B5. simpl. apply map_nth_error. auto.
        + unfold kappa. rewrite Y1. auto. }
    assert (All : forall T, T <= length ins ->
      i_clock (I T) = T /\ hist_inv T /\
      invs mode glob call nilout sub0 rho kappa (node_exprs nd) 0 T (mkEs (i_flips (I T)) (i_subs (I T)))).
    { induction T as [|T IH]; intros L.
      - rewrite A. simpl. split; auto. split.
        + intros x h Lx. rewrite A in Lx. cbn [i_hists] in Lx. unfold init_hists in Lx. apply lookup_init_hists in Lx.
          destruct Lx as (y & d & J & Ey & Nz & ->). exists y, d, []. repeat split; auto.
          intros [|k] n H; discriminate.
        + assert (Ini : forall e lo,
            (forall id, In id (calls_of e) -> id < length (n_blocks nd)) ->
            (forall id, In id (flips_of e) -> id < n_flips nd) ->
            inv mode glob call nilout sub0 rho kappa e lo 0
              (mkEs (repeat flip_default (n_flips nd)) (map sub0 (seq 0 (length (n_blocks nd)))))).
          { induction e using expr_ind'; intros lo Hc Hf; try (exact Logic.I).
            - apply inv_tuple. intros e J. rewrite Forall_forall in H. apply H; auto.
              + intros id K. apply Hc. simpl. apply in_flat_map. eauto.
              + intros id K. apply Hf. simpl. apply in_flat_map. eauto.
            - simpl in *. auto.
            - simpl in *. auto.
            - simpl in *. split; [apply IHe1|apply IHe2]; intros; try apply Hc; try apply Hf; apply in_app_iff; auto.
            - simpl in *. auto.
            - simpl in *. split; [apply IHe1|apply IHe2]; intros; try apply Hc; try apply Hf; apply in_app_iff; auto.
            - simpl in *. split; [apply IHe1|apply IHe2]; intros; try apply Hc; try apply Hf; apply in_app_iff; auto.
            - simpl in *. split; [intros _; apply IHe1|apply IHe2]; intros; try apply Hc; try apply Hf; apply in_app_iff; auto.
            - simpl in *. split; [apply IHe1|split; [apply IHe2|]]; try (intros; try apply Hc; try apply Hf; rewrite in_app_iff; auto; fail).
              exists flip_default. split.
              + rewrite nth_error_repeat; auto.
              + simpl. intros; lia.
            - simpl in *. split; [apply IHe1|split; [apply IHe2|apply IHe3]]; intros; try apply Hc; try apply Hf; rewrite !in_app_iff; auto.
            - simpl in *. split; [apply IHe1|split; [apply IHe2|apply IHe3]]; intros; try apply Hc; try apply Hf; rewrite !in_app_iff; auto.
            - cbn [inv]. simpl in Hc, Hf. split; [apply IHe; auto|].
              exists [], [], (sub0 id). split; [simpl; lia|]. split; [intros [|j] w Hj; discriminate|]. split; [reflexivity|].
              cbn [es_subs]. assert (Li : id < length (n_blocks nd)) by (apply Hc; auto).
              rewrite nth_error_map.
              rewrite (nth_error_nth' (seq 0 (length (n_blocks nd))) 0) by (rewrite seq_length; auto).
              rewrite seq_nth by auto. reflexivity. }
          intros e J. apply Ini.
          * intros id K. apply (wf_call_range _ W). apply in_flat_map. eauto.
          * intros id K. apply (wf_flip_range _ W). apply in_flat_map. eauto.
      - destruct IH as (I1 & I2 & I3); [lia|].
        destruct (nth_error ins T) as [v|] eqn:Hv; [|apply nth_error_None in Hv; lia].
        destruct (Main T v Hv I1 I2 I3) as (J1 & J2 & J3 & _). auto. }
    split; auto. split; [|split].
    - intros T v Hv. assert (L : T <= length ins) by (apply nth_error_some_lt in Hv; lia).
      destruct (All T L) as (I1 & I2 & I3). destruct (Main T v Hv I1 I2 I3) as (_ & _ & _ & J1 & J2 & J3 & _). auto.
    - intros id shape init clk next Hr Hi Hu.
      assert (Ex : forall T, T <= length ins -> exists r, nth_error (i_regs (I T)) id = Some r).
      { induction T as [|T IH]; intros L.
        - rewrite A. simpl. eauto.
        - destruct IH as (r & Er); [lia|].
          destruct (nth_error ins T) as [v|] eqn:Hv; [|apply nth_error_None in Hv; lia].
          destruct (All T) as (I1 & I2 & I3); [lia|].
          destruct (Main T v Hv I1 I2 I3) as (_ & _ & _ & _ & _ & _ & J). destruct (J _ _ Er) as (rf & _ & _ & K & _). eauto. }
      exists (fun T => match nth_error (i_regs (I T)) id with Some r => r | None => reg_default shape end). split.
      + rewrite A. simpl. rewrite Hr. auto.
      + intros T L. destruct (Ex T) as (r & Er); [lia|]. rewrite Er.
        destruct (nth_error ins T) as [v|] eqn:Hv; [|apply nth_error_None in Hv; lia].
        destruct (All T) as (I1 & I2 & I3); [lia|].
        destruct (Main T v Hv I1 I2 I3) as (_ & _ & _ & _ & _ & _ & J).
        destruct (J _ _ Er) as (rf & effI & effU & K1 & K2 & K3 & (_ & _ & K4 & K5)).
        destruct (K4 _ _ Hi) as (c' & n & vi & Ec & -> & Sc & Sv). inversion Ec; subst c'.
        destruct (K5 _ Hu) as (w & -> & Sw).
        exists n, vi, w, (reg_get rf). rewrite K1. split; auto. split; auto. split; auto.
        unfold reg_apply in K3. unfold reg_instant. destruct (reg_with_clock r n) as [r1|] eqn:Rc; cbn [bind] in *; [|discriminate].
        assert (Ei : r_inner r1 = r_inner r).
        { unfold reg_with_clock in Rc. destruct (nil_is n _); inversion Rc; auto. }
        match type of K3 with bind ?x _ = _ => destruct x as [r2|] eqn:Q; cbn [bind] in *; [|discriminate] end.
        destruct (same_shapeb w (r_inner r2)) eqn:Sw'; [|discriminate]. inversion K3; subst. rewrite reg_get_schedule in *.
        apply same_shapeb_nil in Sw'. destruct vi as [v0|].
        * destruct (same_shapeb v0 (r_inner r1)) eqn:Sv'; [|discriminate]. apply same_shapeb_nil in Sv'. inversion Q; subst.
          assert (Es : all_nil (r_inner (reg_try_initialize r1 v0)) = all_nil (r_inner r1)).
          { unfold reg_try_initialize. destruct (first_is_nil (r_inner r1)); auto. }
          split; [intros v1 E1; inversion E1; congruence|]. split; [congruence|split; auto].
        * inversion Q; subst. split; [intros v1 E1; discriminate|]. split; [congruence|split; auto].
    - exists I. split; [auto|]. intros T v Hv. destruct (C T v Hv) as (o & Ho & St). exists (S0 T), (SS T), o.
      assert (L : T <= length ins) by (apply nth_error_some_lt in Hv; lia). destruct (All T L) as (I1 & _). auto.
  Qed.
End Node.
