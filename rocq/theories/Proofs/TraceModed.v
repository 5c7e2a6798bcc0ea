(** * Traces of accepted programs, each node in its mode. *)
From Coq Require Import String Ascii List ZArith Bool Arith Lia Permutation.
From Coq Require Import Floats.SpecFloat.
From Verif Require Import Model.Base Model.Scalar Model.Value Model.Ast Model.Errors Model.Interp Model.Options Model.Surface Model.Translate
  Model.Causality Model.Pipeline Model.Names Model.Codegen Model.Trace
  Spec.StepSpec Spec.TranslateSpec Spec.SurfaceSem Spec.ProgramSem Spec.ClockSpec Spec.UniversalSem Spec.SourceCausal Spec.TraceSpec
  Spec.AttrSpec Proofs.Attrs Proofs.OutBasics Proofs.InterpBasics Proofs.StepProofs Proofs.CoreProofs Proofs.CoreNode Proofs.TranslateStruct Proofs.NodeWf Proofs.PipelineProofs Proofs.ProgramProofs Proofs.SourceCausality Proofs.TraceText Proofs.Traces Proofs.TraceProgram Proofs.UniProgram.
Import ListNotations.
Local Open Scope list_scope.

Section Moded.
  Variables (fshow : spec_float -> string) (mode : ovf) (glob : ident -> option scalar).

  Theorem lines_moded : forall nodes p, Forall (mfrom_source nodes) (untraced p) ->
    forall f file ifmt ofmt nd i ins out outs i',
    traced p f = Some (Some (file, (ifmt, ofmt)), nd) -> init_inst (untraced p) f = Ok i ->
    trun fshow mode glob p f i ins = (out, Ok (outs, i')) ->
    exists universal sn rho pouts ls, In (universal, sn) nodes /\ s_name sn = f /\
      mstreams mode glob nodes universal sn (filter (fun v => negb (first_is_nil v)) ins) pouts rho /\
      outs = weave (absent_row (declared (s_outputs sn))) ins pouts /\
      out = concat ls /\ length ls = actives ins /\
      forall T l, nth_error ls T = Some l -> exists first body last, l = ((file, first) :: body ++ [(file, last)])%list /\
        shown (scope fshow "      " f T (rho T) (declared (s_inputs sn))) (format_string "<-" ifmt (n_inputs nd)) first /\
        shown (scope fshow "      " f T (rho T) (declared (s_inputs sn) ++ declared (s_locals sn) ++ declared (s_outputs sn)))
          (format_string "->" ofmt (n_outputs nd)) last.
  Proof.
    intros nodes p. induction p as [|(o, nd0) p IH]; intros Src f file ifmt ofmt nd i ins out outs i' F Hi R; [discriminate|].
    inversion Src as [|? ? S1 S2]; subst. cbn [traced] in F.
    destruct (String.eqb f (n_name nd0)) eqn:E.
    - apply String.eqb_eq in E. inversion F; subst. clear F. cbn [untraced map snd] in *.
      assert (F : traced ((Some (file, (ifmt, ofmt)), nd) :: p) (n_name nd) = Some (Some (file, (ifmt, ofmt)), nd)) by (cbn; rewrite String.eqb_refl; auto).
      destruct (trun_present fshow mode glob _ _ _ _ _ _ _ _ _ F R) as (pouts & Rp & ->).
      set (pins := filter (fun v => negb (first_is_nil v)) ins) in *.
      assert (Pr : Forall present pins).
      { apply Forall_forall. intros v J. apply filter_In in J. destruct J as [_ J]. unfold present. destruct (first_is_nil v); auto. }
      destruct S1 as (op & sn & C & Isn).
      destruct (compiled_passed _ _ _ C) as (ndx & stmts & Pa). destruct (passed_names _ _ _ _ _ Pa) as (N1 & N2 & N3 & N4 & N5).
      pose proof (passed_wf _ _ _ _ _ Pa) as W.
      assert (Rr : run mode glob (nd :: untraced p) (n_name nd) i pins = Ok (pouts, i')) by (apply (tres_ok fshow mode glob ((Some (file, (ifmt, ofmt)), nd) :: p)); rewrite Rp; auto).
      assert (Str : length pouts = length pins /\ exists rho : nat -> ident -> option nillable,
        (forall T v o, nth_error pins T = Some v -> nth_error pouts T = Some o ->
          (declared (s_inputs sn) = [] \/ row (rho T) (declared (s_inputs sn)) v) /\
          (forall i, In i (s_defs sn) ->
            if o_universal op then ustmt_holds mode glob (node_vars sn) (declared_pace sn) rho (answers mode glob (untraced p)) T i
            else sstmt_holds mode glob (node_vars sn) rho (answers mode glob (untraced p)) (absent_answer (untraced p)) T i) /\
          row (rho T) (declared (s_outputs sn)) o) /\
        exists I : nat -> inst, I 0 = i /\
          forall T v, nth_error pins T = Some v -> exists st0 ssf o, nth_error pouts T = Some o /\
            step_ok mode glob (callee mode glob (untraced p) nd) (callee_nil (untraced p) nd) nd (I T) v st0 ssf o (I (S T)) /\
            i_clock (I T) = T /\ (forall x, rho T x = lookup x (ss_store ssf))).
      { destruct (o_universal op) eqn:U; [apply (unode_streams mode glob nd (untraced p) op sn C U i pins pouts i' Hi Rr Pr)
          |apply (node_streams mode glob nd (untraced p) op sn C U i pins pouts i' Hi Rr Pr)]. }
      destruct Str as (L & rho & Eq & I & I0 & St).
      assert (Pv : forall T v, nth_error pins T = Some v -> first_is_nil v = false).
      { intros T v Hv. apply nth_error_In in Hv. rewrite Forall_forall in Pr. apply Pr. auto. }
      destruct (trun_states fshow mode glob _ _ pins i out pouts i' I Rp I0) as (ls & -> & Ll & K).
      { intros T v Hv. destruct (St T v Hv) as (st0 & ssf & oo & _ & So & _). exists oo. cbn [untraced map snd step]. rewrite String.eqb_refl.
        apply (step_ok_step mode glob _ _ _ _ _ _ _ _ _ (Pv _ _ Hv) So). }
      exists (o_universal op), sn, rho, pouts, ls. split; auto. split; [congruence|]. split; [|split; [rewrite vars_nil_names, N2; auto|split; [auto|split; [auto|]]]].
      + split; auto. intros T v ot Hv Ho. destruct (Eq T v ot Hv Ho) as (A & B & D). split; auto. split; auto.
        intros s J. specialize (B s J).
        assert (HF : forall g args w, answers mode glob (untraced p) g args w -> exists os, mmeans mode glob nodes g args (os ++ [w])%list).
        { intros g args w (i0 & os & i1 & X & Y). exists os. exists (length (untraced p)). eapply mprog_sound; eauto. }
        destruct (o_universal op); cbn zeta; [eapply ustmt_mono; eauto|]. eapply sstmt_mono; [exact HF| |exact B].
        intros g w X. unfold absent_answer, nil_outputs in X.
        destruct (find_node (untraced p) g) as [[n' P'']|] eqn:Fg; [|discriminate]. cbn in X. inversion X; subst.
        apply find_node_in in Fg. destruct Fg as [Ig Ng]. rewrite Forall_forall in S2. destruct (S2 _ Ig) as (o' & sn' & C' & J').
        destruct (compiled_passed _ _ _ C') as (nd0' & stmts' & Pa'). destruct (passed_names _ _ _ _ _ Pa') as (N1' & N2' & N3' & N4' & N5').
        exists sn'. split; [apply in_map_iff; exists (o_universal o', sn'); auto|]. split; [congruence|]. rewrite vars_nil_names, N2'. auto.
      + intros T l Hl.
        destruct (nth_error pins T) as [v|] eqn:Hv; [|exfalso; apply nth_error_None in Hv; assert (T < length ls) by (apply nth_error_Some; congruence); lia].
        destruct (St T v Hv) as (st0 & ssf & oo & Ho & So & Ck & Rho).
        destruct (K T v l Hv Hl) as (r & Ts & Hr). assert (r = oo) by congruence. subst r.
        cbn [tstep] in Ts. rewrite String.eqb_refl in Ts.
        destruct (tnode_store fshow mode glob p (file, (ifmt, ofmt)) nd (I T) v l oo (I (S T)) file ifmt ofmt st0 ssf eq_refl (Pv _ _ Hv) Ts So) as (first & body & last & -> & Sh1 & Sh2).
        exists first, body, last. split; auto. rewrite Ck in Sh1, Sh2. rewrite <- N1, <- N2, <- N3. split.
        * eapply shown_ext; [|exact Sh1]. intros x. unfold scope. destruct (existsb (String.eqb x) (map v_name (n_inputs nd))) eqn:Ex; auto.
          apply existsb_names in Ex. f_equal. rewrite Rho. destruct So as (h & B1 & B2 & _). destruct ssf as [st rg es]. symmetry.
          apply (Traces.execs_store _ _ _ _ _ _ _ _ _ _ _ _ _ B2). intros t e J Jx.
          assert (Wd : forall x, In x (map v_name (n_inputs nd)) -> ~ In x (flat_map stmt_targets (n_stmts nd))).
          { apply (nodup_str_app _ _ (wf_targets _ W)). }
          apply (Wd x Ex). apply in_flat_map. exists (SLet t e). auto.
        * eapply shown_ext; [|exact Sh2]. intros x. rewrite !map_app. unfold scope. destruct (existsb _ _); auto. rewrite Rho. auto.
    - apply (IH S2 f file ifmt ofmt nd i ins out outs i' F).
      + cbn [untraced map snd init_inst] in Hi. rewrite E in Hi. exact Hi.
      + rewrite <- R. clear - E. revert i. induction ins as [|v ins IHi]; intros i; cbn [trun]; auto. cbn [tstep]. rewrite E.
        destruct (tstep fshow mode glob p f i v) as [o1 [[r i1]|]]; cbn [tbind]; auto. rewrite IHi. auto.
  Qed.
End Moded.

Theorem traces_moded : forall fshow mode glob p l f file ifmt ofmt nd i ins out outs i',
  result (pipeline p) = Some l ->
  traced (tnodes_of l) f = Some (Some (file, (ifmt, ofmt)), nd) -> init_inst (nodes_of l) f = Ok i ->
  trun fshow mode glob (tnodes_of l) f i ins = (out, Ok (outs, i')) ->
  exists universal sn rho pouts ls, In (universal, sn) (moded_nodes p) /\ s_name sn = f /\
    mstreams mode glob (moded_nodes p) universal sn (filter (fun v => negb (first_is_nil v)) ins) pouts rho /\
    outs = weave (absent_row (declared (s_outputs sn))) ins pouts /\
    out = concat ls /\ length ls = actives ins /\
    forall T l, nth_error ls T = Some l -> exists first body last, l = ((file, first) :: body ++ [(file, last)])%list /\
      shown (scope fshow "      " f T (rho T) (declared (s_inputs sn))) (format_string "<-" ifmt (n_inputs nd)) first /\
      shown (scope fshow "      " f T (rho T) (declared (s_inputs sn) ++ declared (s_locals sn) ++ declared (s_outputs sn)))
        (format_string "->" ofmt (n_outputs nd)) last.
Proof.
  intros fshow mode glob p l f file ifmt ofmt nd i ins out outs i' H F Hi R.
  eapply lines_moded; eauto; rewrite untraced_nodes; auto. eapply pipeline_moded; eauto.
Qed.
