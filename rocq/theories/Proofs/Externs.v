(** Proofs about the execution of programs with extern nodes. *)
From Coq Require Import String List ZArith Bool Arith Lia Permutation.
From Coq Require Import Floats.SpecFloat.
From Verif Require Import Model.Base Model.Scalar Model.Value Model.History Model.Register Model.Ast Model.Errors Model.Interp Model.Options Model.Surface
  Model.Causality Model.Translate Model.Typecheck Model.Clockcheck Model.Positivity Model.Pipeline Model.Trace Model.Extern
  Spec.StepSpec Spec.SurfaceSem Spec.ProgramSem Spec.UniversalSem Spec.ExternSem
  Proofs.AstInd Proofs.OutBasics Proofs.InterpBasics Proofs.StepProofs Proofs.CoreProofs Proofs.CoreNode Proofs.NodeWf Proofs.ProgramProofs Proofs.UniProgram Proofs.PipelineProofs
  Proofs.Wrappers Proofs.ExternBasics Proofs.DeclOrder Proofs.DeclRuns Proofs.Traces Proofs.StaticProgram Proofs.Link.
Import ListNotations.

Lemma bind_all_inv : forall l vs st st', bind_all l vs st = Ok st' -> exists ns, vs = map VS ns /\ length ns = length l.
Proof.
  induction l as [|a l IH]; intros vs st st' H; destruct vs as [|[n|] vs]; cbn in H; try discriminate; [exists []; auto|].
  destruct (IH _ _ _ H) as (ns & -> & L). exists (n :: ns). cbn. auto.
Qed.
Lemma ext_bind_inv : forall outs w st st', outs <> [] -> ext_bind outs w st = Ok st' -> exists ns, w = tuple_val (map VS ns) /\ length ns = length outs.
Proof.
  intros outs w st st' Ne H. destruct outs as [|a [|b outs]]; [tauto| |].
  - cbn in H. destruct w as [n|]; [|discriminate]. exists [n]. auto.
  - unfold ext_bind in H. rewrite bind_mult in H by (cbn; lia). destruct w as [|vs]; [discriminate|]. destruct (bind_all_inv _ _ _ _ H) as (ns & -> & L).
    exists ns. split; auto. destruct ns as [|n [|m ns]]; cbn in L; try discriminate. reflexivity.
Qed.
Lemma ext_answer : forall outs w st st' o, NoDup (map v_name outs) -> ext_bind outs w st = Ok st' -> read_outputs outs st' = Ok o ->
  exists ns, length ns = length outs /\ o = tuple_val (map VS ns) /\ (outs <> [] -> w = tuple_val (map VS ns)).
Proof.
  intros outs w st st' o N B R. destruct outs as [|a outs].
  - exists []. cbn in R. inversion R. split; auto. split; auto. intros X. tauto.
  - destruct (ext_bind_inv (a :: outs) _ _ _ ltac:(discriminate) B) as (ns & -> & L). destruct (ext_bind_ok (a :: outs) ns st ltac:(auto) N) as (st2 & B2 & R2 & _).
    exists ns. split; auto. assert (st2 = st') by congruence. subst. split; auto. congruence.
Qed.

Section ExtRun.
  Variables (b : behaviour) (x : ident) (ins outs : list tyvar).
  Hypothesis N : NoDup (map v_name outs).

  Lemma ext_run : forall vs past clk os i', Forall present vs -> iter (xext b x ins outs) (ext_inst past clk) vs = Ok (os, i') ->
    i' = ext_inst (past ++ vs) (length vs + clk) /\ length os = length vs /\
    forall T v, nth_error vs T = Some v -> exists w ns, b (past ++ firstn T vs) v = Ok w /\
      length ns = length outs /\ nth_error os T = Some (tuple_val (map VS ns)) /\ (outs <> [] -> w = tuple_val (map VS ns)).
  Proof.
    induction vs as [|v vs IH]; intros past clk os i' Pr R.
    - cbn in R. inversion R; subst. rewrite app_nil_r. repeat split; auto. intros [|T] v H; discriminate.
    - inversion Pr as [|? ? Pv Pvs]; subst. cbn [iter] in R. rewrite xext_present in R by exact Pv. inv_ok.
      destruct (IH _ _ _ _ Pvs E) as (-> & L & H). rewrite <- app_assoc in *. cbn [app length] in *. split; [f_equal; lia|]. split; [auto|].
      intros [|T] u Hu.
      + cbn in Hu. inversion Hu; subst. destruct (ext_answer _ _ _ _ _ N E2 E3) as (ns & Ln & -> & Q). exists r1, ns. cbn. rewrite app_nil_r. auto.
      + cbn in Hu. destruct (H _ _ Hu) as (w & ns & A & B). exists w, ns. cbn [firstn nth_error]. rewrite <- app_assoc in A. auto.
  Qed.

  Lemma ext_stutter : forall vs past clk os i', iter (xext b x ins outs) (ext_inst past clk) vs = Ok (os, i') ->
    exists pouts, iter (xext b x ins outs) (ext_inst past clk) (filter (fun v => negb (first_is_nil v)) vs) = Ok (pouts, i') /\
      os = weave (vars_nil outs) vs pouts.
  Proof.
    induction vs as [|v vs IH]; intros past clk os i' R; [cbn in *; inversion R; subst; exists []; auto|].
    cbn [iter filter weave] in *. destruct (first_is_nil v) eqn:V; cbn [negb].
    - rewrite xext_absent in R by auto. cbn [bind] in R. inv_ok. destruct (IH _ _ _ _ E) as (po & A & ->). exists po. auto.
    - cbn [iter]. rewrite xext_present in * by auto. inv_ok. destruct (IH _ _ _ _ E) as (po & A & ->). exists (r3 :: po).
      rewrite E0. cbn [bind]. rewrite E1. cbn [bind]. rewrite E2. cbn [bind]. rewrite E3. cbn [bind]. rewrite A. auto.
  Qed.
End ExtRun.

Lemma iter_stutter : forall f nilv, (forall i v, first_is_nil v = true -> f i v = Ok (nilv, i)) ->
  forall ins i, iter f i ins = ('(os, i') <- iter f i (filter (fun v => negb (first_is_nil v)) ins);; Ok (weave nilv ins os, i')).
Proof.
  intros f nilv F. induction ins as [|v ins IH]; intros i; [reflexivity|].
  cbn [iter filter]. destruct (first_is_nil v) eqn:V; cbn [negb].
  - rewrite (F _ _ V). cbn [bind]. rewrite IH. destruct (iter f i (filter _ ins)) as [[os i']|]; cbn [bind]; auto. cbn [weave]. rewrite V. auto.
  - cbn [iter]. destruct (f i v) as [[o i']|]; cbn [bind]; auto. rewrite IH.
    destruct (iter f i' (filter _ ins)) as [[os i'']|]; cbn [bind]; auto. cbn [weave]. rewrite V. auto.
Qed.

(** ** Programs *)
Definition from_decl (p : sprog) (d : item) : Prop :=
  match d with
  | INode nd => exists o a sn, compiled_node o sn nd /\ In (a, XNode sn) p /\ o_universal o = with_universal a
  | IExt x ins outs => NoDup (map v_name (ins ++ outs)) /\ exists a i o, In (a, XExtNode x i o) p /\ ins = tr_decls i /\ outs = tr_decls o
  end.

Lemma xrun_iter : forall mode glob ext p f ins i, xrun mode glob ext p f i ins = iter (xstep mode glob ext p f) i ins.
Proof.
  intros mode glob ext p f. induction ins as [|v ins IH]; intros i; simpl; auto.
  destruct (xstep _ _ _ _ _ _ _) as [[o i']|]; simpl; auto. rewrite IH. auto.
Qed.

Section Sound.
  Variable mode : ovf.
  Variable glob : ident -> option scalar.
  Variable ext : ident -> behaviour.
  Variable p : sprog.

  Lemma xdenotes_mono : forall n f ins outs, xdenotes mode glob ext p n f ins outs -> xdenotes mode glob ext p (S n) f ins outs.
  Proof.
    induction n as [|n IH]; intros f ins outs [H|H]; try (left; exact H); [destruct H|]. right.
    destruct H as (a & sn & po & I & Q & M & E). exists a, sn, po. split; auto. split; auto. split; auto. cbv zeta in *.
    destruct (with_universal a).
    - eapply unode_mono; [|exact M]. intros g args v (os & D). eauto.
    - eapply node_meaning_mono; [| |exact M]; auto. intros g args v (os & D). eauto.
  Qed.

  Lemma silence_of : forall P, Forall (from_decl p) P -> forall g v, xnil_outputs P g = Ok v -> silence p g v.
  Proof.
    intros P. induction 1 as [|d P S F IH]; intros g v H; unfold xnil_outputs in *; cbn [find_item] in H; [discriminate|].
    destruct (String.eqb_spec g (item_name d)); [|auto]. subst g. cbn in H. inversion H; subst. destruct d as [nd|x ins outs]; cbn in *.
    - destruct S as (o & a & sn & C & I & U). left. exists a, sn. destruct (compiled_passed _ _ _ C) as (nd0 & stmts & Pa).
      destruct (passed_names _ _ _ _ _ Pa) as (N1 & N2 & N3 & N4 & N5). split; auto. split; [congruence|]. rewrite vars_nil_names, N2. auto.
    - destruct S as (_ & a & i & o & I & -> & ->). right. exists a, i, o. split; auto. rewrite vars_nil_names, tr_decls_names. auto.
  Qed.

  Lemma items_sound : forall P, Forall (from_decl p) P ->
    forall f i ins outs i', xinit P f = Ok i -> xrun mode glob ext P f i ins = Ok (outs, i') ->
    xdenotes mode glob ext p (length P) f ins outs.
  Proof.
    induction P as [|d P IH]; intros Src f i ins outs i' Hi R; [discriminate|].
    inversion Src as [|? ? S1 S2]; subst. rewrite xrun_iter in R.
    assert (Sx : forall i v, xstep mode glob ext (d :: P) f i v = if String.eqb f (item_name d) then match d with
          | INode nd => node_step mode glob (acall (xstep mode glob ext P) nd) (aidle (xnil_outputs P) nd) nd i v
          | IExt x ins outs => xext (ext x) x ins outs i v end else xstep mode glob ext P f i v) by reflexivity.
    rewrite (iter_ext _ _ Sx) in R. clear Sx. cbn [xinit] in Hi.
    destruct (String.eqb_spec f (item_name d)) as [->|Ne].
    - destruct d as [nd|x iv ov]; cbn [item_name] in *.
      + destruct S1 as (o & a & sn & C & I & U). inv_ok. rename r into regs0, r0 into subs.
        rewrite (iter_stutter _ (vars_nil (n_outputs nd))) in R; [|intros i0 v V; unfold node_step; rewrite V; auto]. inv_ok.
        destruct (compiled_passed _ _ _ C) as (nd0 & stmts & Pa). destruct (passed_names _ _ _ _ _ Pa) as (N1 & N2 & N3 & N4 & N5).
        right. exists a, sn, l. split; auto. split; [congruence|]. split; [|rewrite vars_nil_names, N2; auto].
        assert (Prs : Forall present (filter (fun v => negb (first_is_nil v)) ins)).
        { apply Forall_forall. intros v J. apply filter_In in J. destruct J as [_ J]. unfold present. destruct (first_is_nil v); auto. }
        set (F := fun g args v => exists i0 os i1, xinit P g = Ok i0 /\ iter (xstep mode glob ext P g) i0 args = Ok (os ++ [v], i1)).
        assert (Ans : forall g args v, F g args v -> exists os, xdenotes mode glob ext p (length P) g args (os ++ [v])).
        { intros g args v (i0 & os & i1 & A & B). exists os. eapply IH; eauto. rewrite xrun_iter. eauto. }
        cbv zeta. rewrite <- U. destruct (o_universal o) eqn:Uo.
        * eapply unode_mono; [exact Ans|].
          apply (calls_urun mode glob (xinit P) (xstep mode glob ext P) (xnil_outputs P) F) with (nd := nd) (o := o) (regs0 := regs0) (subs := subs) (i' := i'); auto.
          intros g args v i0 os i1 A B. exists i0, os, i1. auto.
        * apply (node_meaning_mono _ _ F _ (fun g v => xnil_outputs P g = Ok v)); [exact Ans|apply silence_of; auto|].
          destruct (calls_streams mode glob (xinit P) (xstep mode glob ext P) (xnil_outputs P) F (fun g v => xnil_outputs P g = Ok v))
            with (nd := nd) (o := o) (sn := sn) (regs0 := regs0) (subs := subs) (ins := filter (fun v => negb (first_is_nil v)) ins) (outs := l) (i' := i')
            as (L & rho & H & _); auto; try (intros; unfold F; tauto). split; auto. exists rho. exact H.
      + inversion Hi; subst i. destruct S1 as (N & a & si & so & I & -> & ->). destruct (ext_stutter _ _ _ _ _ _ _ _ _ R) as (po & Rp & ->).
        left. exists a, si, so, po. split; auto. split; [|rewrite vars_nil_names, tr_decls_names; auto].
        assert (Nd : NoDup (map v_name (tr_decls so))).
        { rewrite map_app in N. clear - N. induction (map v_name (tr_decls si)); auto. inversion N; auto. }
        assert (Prs : Forall present (filter (fun v => negb (first_is_nil v)) ins)).
        { apply Forall_forall. intros v J. apply filter_In in J. destruct J as [_ J]. unfold present. destruct (first_is_nil v); auto. }
        destruct (ext_run _ _ _ _ Nd _ _ _ _ _ Prs Rp) as (_ & L & H). split; auto. intros T v Hv. destruct (H _ _ Hv) as (w & ns & A & B & C & D).
        rewrite <- tr_decls_names, map_length. exists w, ns. repeat split; auto. intros Ne. apply D. intros Q. apply Ne. rewrite Q. auto.
    - apply xdenotes_mono. eapply IH; eauto. rewrite xrun_iter. eauto.
  Qed.
End Sound.

Lemma in_items : forall l d, In d (items_of l) -> match d with
  | INode nd => In nd (nodes_of l)
  | IExt x i o => exists opts, In (DExtNode opts x i o) l end.
Proof.
  intros l d J. unfold items_of in J. apply in_rev in J. apply in_flat_map in J. destruct J as (e & J & K).
  destruct e as [|o nd| |o x i o']; cbn in K; try tauto; destruct K as [<-|[]]; [|eauto].
  unfold nodes_of. apply -> in_rev. apply in_flat_map. exists (DNode o nd). cbn. auto.
Qed.

Lemma extern_source : forall p l opts x ins outs, result (pipeline p) = Some l -> In (DExtNode opts x ins outs) l ->
  NoDup (map v_name (ins ++ outs)) /\ exists a i o, In (a, XExtNode x i o) p /\ ins = tr_decls i /\ outs = tr_decls o.
Proof.
  intros p l opts x ins outs H J. destruct (accepted_code _ _ H) as (m & c & T & _ & _ & C & P).
  apply (Permutation_in _ (Permutation_sym P)) in J. destruct (forall2_in_r _ _ _ C _ J) as (d & Jd & Cd). destruct (forall2_in_r _ _ _ T _ Jd) as (a & Ja & d0 & Ta & Da).
  destruct (tr_becomes _ _ _ Ta Da) as (_ & _ & B & _).
  destruct Cd as (d2 & d3 & Tc & K & Po).
  assert (Q : d = DExtNode opts x ins outs /\ exists u, result (tc_ext_node opts ins outs) = Some u).
  { destruct d3 as [| | |o3 x3 i3 o3']; cbn [pos_decl] in Po; try (apply obind_some in Po; destruct Po as (? & _ & Po)); inversion Po; subst.
    destruct d2 as [| | |o2 x2 i2 o2']; cbn [kc_decl] in K; try (apply obind_some in K; destruct K as (? & _ & K)); inversion K; subst.
    destruct d as [| | |o1 x1 i1 o1']; cbn [tc_one] in Tc; try (apply obind_some in Tc; destruct Tc as (r & X & Tc)); try (inversion Tc; subst; eauto; fail).
    destruct r; inversion Tc. }
  destruct Q as (-> & u & Ck). split.
  - unfold tc_ext_node in Ck. apply obind_some in Ck. destruct Ck as (? & _ & Ck). apply obind_some in Ck. destruct Ck as (? & _ & Ck).
    apply obind_some in Ck. destruct Ck as ((ok, vs) & Ck & Q). destruct ok; [|discriminate]. apply tc_vars_ok in Ck. tauto.
  - inversion B; subst. eauto 6.
Qed.

Lemma pipeline_items : forall p l, result (pipeline p) = Some l -> Forall (from_decl p) (items_of l).
Proof.
  intros p l H. apply Forall_forall. intros d J. apply in_items in J. destruct d as [nd|x i o]; cbn [from_decl].
  - destruct (pipeline_nodes _ _ H _ J) as (o & a & sn & d & Ia & W & Fo & C). exists o, a, sn. split; auto. split; auto.
    rewrite (node_opts_universal _ _ _ W Fo). reflexivity.
  - destruct J as (opts & J). eapply extern_source; eauto.
Qed.

Theorem extern_program_sound : forall mode glob ext p l f ins outs, result (pipeline p) = Some l ->
  xoutputs mode glob ext (items_of l) f ins = Ok outs -> xmeans mode glob ext p f ins outs.
Proof.
  intros mode glob ext p l f ins outs H R. unfold xoutputs in R. inv_ok. exists (length (items_of l)).
  eapply items_sound; eauto. apply pipeline_items. auto.
Qed.

(** ** Programs without extern nodes *)
Theorem closed_same : forall mode glob ext l, (forall o x i o', ~ In (DExtNode o x i o') l) -> forall f,
  xinit (items_of l) f = init_inst (nodes_of l) f /\
  forall i ins, xrun mode glob ext (items_of l) f i ins = run mode glob (nodes_of l) f i ins.
Proof.
  intros mode glob ext l H f. rewrite (items_closed _ H). split; [apply xinit_closed|]. intros i ins. rewrite xrun_iter, run_iter. apply iter_ext.
  intros. apply xstep_closed.
Qed.
