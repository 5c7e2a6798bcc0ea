(** Default-mode programs with extern nodes run without failing exactly on the
    streams that the source equations and the extern nodes define. *)
From Coq Require Import String List ZArith Bool Arith Lia Permutation.
From Verif Require Import Model.Base Model.Scalar Model.Value Model.History Model.Register Model.Ast Model.Errors Model.Interp Model.Options Model.Surface Model.Translate
  Model.Pipeline Model.Extern
  Spec.StepSpec Spec.CoreSem Spec.SurfaceSem Spec.ProgramSem Spec.SettledSem Spec.SafetySpec Spec.ExternSem Spec.ExternSettled Spec.Static
  Proofs.AstInd Proofs.OutBasics Proofs.InterpBasics Proofs.StepProofs Proofs.CoreProofs Proofs.CoreNode Proofs.NodeWf Proofs.PipelineProofs Proofs.ProgramProofs
  Proofs.Unique Proofs.RuntimeProofs Proofs.TypeProg Proofs.BoundedReads Proofs.Completeness Proofs.CompletenessNode Proofs.Settled Proofs.Exact
  Proofs.Wrappers Proofs.ExternBasics Proofs.Externs Proofs.ExternLink Proofs.StaticProgram.
Import ListNotations.

(** ** Nodes do not read what is not there *)
Section NodeFine.
  Variable mode : ovf.
  Variable glob : ident -> option scalar.
  Variable call : nat -> inst -> val -> res (val * inst).
  Variable nilout : nat -> res val.
  Variable Good : nat -> inst -> Prop.
  Hypothesis Cf : forall id i w, Good id i -> fine (call id i w) (fun '(_, i') => Good id i').
  Hypothesis Nf : forall id, fine (nilout id) (fun _ => True).

  Lemma node_fine : forall nd i v, reading_node glob nd -> sized_hists nd (i_hists i) ->
    (forall id sub, nth_error (i_subs i) id = Some sub -> Good id sub) ->
    fine (node_step mode glob call nilout nd i v)
      (fun '(_, i') => sized_hists nd (i_hists i') /\ forall id sub, nth_error (i_subs i') id = Some sub -> Good id sub).
  Proof.
    intros nd i v [W1 W2 W3 W4 W5] Hs Sb. unfold node_step. destruct (first_is_nil v); [cbn; auto|].
    destruct i as [clk hists regs flips subs]. cbn [i_hists i_subs] in *.
    assert (Bi : fine (bind_inputs (n_inputs nd) v) (bound_in (map v_name (n_inputs nd)))).
    { unfold bind_inputs. destruct (n_inputs nd) as [|a l] eqn:Ei; [cbn; intros x []|]. rewrite <- Ei.
      eapply fine_weaken; [apply (bind_fine _ v [] []); intros x []|]. intros st. apply bound_more. intros x J.
      rewrite app_nil_r. cbn. clear -J. induction (n_inputs nd); cbn in *; auto. destruct J; auto. }
    eapply fine_bind; [exact Bi|]. clear Bi. intros st B.
    assert (Or : reads_in_order hists (map v_name (n_inputs nd)) (n_stmts nd)).
    { revert W1 W2. clear -Hs. generalize (map v_name (n_inputs nd)). induction (n_stmts nd) as [|s l IHl]; intros bound O Pa; cbn; auto.
      destruct O as [O1 O2]. split; [|apply IHl; auto; intros s0 x d J K; apply (Pa s0 x d); cbn; auto].
      intros x [|d] J; [apply O1; auto|]. destruct (Pa s x d) as (w & Jw & E & Le); [cbn; auto|auto|].
      destruct (v_depth w) as [|dw] eqn:Ed; [lia|]. destruct (Hs _ _ Jw Ed) as (h & L & Lh). exists h. subst. split; auto. lia. }
    eapply fine_bind.
    { eapply (execs_fine mode glob clk hists _ _ Good); [exact Cf|exact Nf|exact Or|exact W5|exact B|].
      intros id sub Es. cbn in Es. eauto. }
    intros [st' regs' [flips' subs']] [B' G']. cbn [ss_store ss_es] in *.
    assert (All : forall x, In x (all_vars nd) -> exists n, lookup (v_name x) st' = Some n).
    { intros x J. apply B'. apply in_app_iff. unfold all_vars in J. apply in_app_or in J. destruct J as [J|J]; [right; apply in_map; auto|left; auto]. }
    destruct (update_vars_safe st' (all_vars nd) hists All) as (hists' & -> & Gr). cbn [bind].
    assert (Ro : forall l, (forall x, In x l -> In x (all_vars nd)) -> exists vs, mapM (var_value st') l = Ok vs).
    { clear -All. induction l as [|x l IHl]; intros Sub; [exists []; cbn; auto|].
      destruct IHl as (ns & E); [intros; apply Sub; cbn; auto|]. destruct (All x) as (n & L); [apply Sub; cbn; auto|].
      exists (VS n :: ns). cbn [mapM]. unfold var_value at 1. rewrite L. cbn [of_option bind]. rewrite E. auto. }
    destruct (Ro (n_outputs nd)) as (vs & Eo); [intros x J; unfold all_vars; rewrite !in_app_iff; auto|].
    unfold read_outputs. rewrite Eo. cbn [bind fine i_hists i_subs]. split.
    - intros w d J Ed. destruct (Hs _ _ J Ed) as (h & L & Lh). specialize (Gr (v_name w)). rewrite L in Gr.
      destruct (lookup (v_name w) hists') as [h'|]; [|tauto]. exists h'. split; auto. destruct Gr. congruence.
    - intros id sub Es. eapply G'; eauto.
  Qed.
End NodeFine.

Definition reading_item (glob : ident -> option scalar) (d : item) : Prop :=
  match d with INode nd => reading_node glob nd | IExt _ ins outs => NoDup (map v_name (ins ++ outs)) end.

Fixpoint xsized (p : list item) (f : ident) (i : inst) : Prop :=
  match p with
  | [] => True
  | d :: p =>
      if String.eqb f (item_name d) then
        match d with
        | INode nd => sized_hists nd (i_hists i) /\
            forall id g sub, nth_error (n_blocks nd) id = Some g -> nth_error (i_subs i) id = Some sub -> xsized p g sub
        | IExt _ _ _ => exists past clk, i = ext_inst past clk
        end
      else xsized p f i
  end.

Lemma bind_inputs_ext : forall ins v, bind_inputs ins v = ext_bind ins v [].
Proof. intros [|a l] v; reflexivity. Qed.
Lemma ext_bind_fine : forall outs w st, fine (ext_bind outs w st) (fun _ => True).
Proof.
  intros outs w st. destruct outs as [|a l]; [exact Logic.I|]. cbn [ext_bind]. eapply fine_weaken; [apply (bind_fine _ w st []); intros x []|]. auto.
Qed.
Lemma read_after : forall outs w st st', NoDup (map v_name outs) -> ext_bind outs w st = Ok st' -> exists o, read_outputs outs st' = Ok o.
Proof.
  intros outs w st st' N B. destruct outs as [|a l]; [cbn; eauto|].
  destruct (ext_bind_inv (a :: l) _ _ _ ltac:(discriminate) B) as (ns & -> & L). destruct (ext_bind_ok (a :: l) ns st ltac:(auto) N) as (st2 & B2 & R2 & _).
  rewrite B in B2. inversion B2; subst. eauto.
Qed.
Lemma nodup_right : forall (A : Type) (l m : list A), NoDup (l ++ m) -> NoDup m.
Proof. induction l; intros m H; auto. inversion H; auto. Qed.
Lemma nodup_left : forall (A : Type) (l m : list A), NoDup (l ++ m) -> NoDup l.
Proof. induction l; intros m H; constructor; inversion H; subst; [intros J; apply H2, in_app_iff; auto|eauto]. Qed.

Section XFine.
  Variable mode : ovf.
  Variable glob : ident -> option scalar.
  Variable ext : ident -> behaviour.
  Hypothesis Ext : forall x past v, ext x past v <> Panic PPast /\ ext x past v <> Panic PUnbound.

  Lemma xext_fine : forall x ins outs i v, NoDup (map v_name (ins ++ outs)) -> (exists past clk, i = ext_inst past clk) ->
    fine (xext (ext x) x ins outs i v) (fun '(_, i') => exists past clk, i' = ext_inst past clk).
  Proof.
    intros x ins outs i v N (past & clk & ->). rewrite map_app in N. destruct (first_is_nil v) eqn:V.
    - rewrite xext_absent by auto. cbn. eauto.
    - rewrite xext_present by auto. rewrite bind_inputs_ext. eapply fine_bind; [apply ext_bind_fine|]. intros st _.
      eapply fine_bind with (P := fun _ => True).
      { destruct (Ext x past v). destruct (ext x past v) as [w|e]; cbn; auto. split; congruence. }
      intros w _. pose proof (ext_bind_fine outs w st) as Bf. destruct (ext_bind outs w st) as [st'|e] eqn:B; [|exact Bf]. cbn [bind].
      destruct (read_after _ _ _ _ (nodup_right _ _ _ N) B) as (o & ->). cbn. eauto.
  Qed.

  Lemma xstep_fine : forall P, Forall (reading_item glob) P -> forall f i v, xsized P f i ->
    fine (xstep mode glob ext P f i v) (fun '(_, i') => xsized P f i').
  Proof.
    induction P as [|d P IH]; intros F f i v I; cbn [xstep]; [cbn; split; discriminate|].
    inversion F as [|? ? W F']; subst. specialize (IH F'). cbn [xsized] in I |- *. destruct (String.eqb f (item_name d)) eqn:E; [|auto].
    destruct d as [nd|x ins outs]; [|apply xext_fine; auto]. destruct I as [Hs Sb].
    eapply fine_weaken; [apply (node_fine mode glob _ _ (fun id i => forall g, nth_error (n_blocks nd) id = Some g -> xsized P g i))|].
    - intros id i0 w Gi. cbn beta. destruct (nth_error (n_blocks nd) id) as [g|] eqn:Eg; [|cbn; split; discriminate].
      eapply fine_weaken; [apply IH; auto|]. intros [o i'] S' g' Eg'. congruence.
    - intros id. eapply fine_bind; [apply fine_option; intros; exact Logic.I|]. intros g _. unfold xnil_outputs.
      eapply fine_bind; [apply fine_option; intros; exact Logic.I|]. intros a _. cbn. auto.
    - exact W.
    - exact Hs.
    - intros id sub Es g Eg. eauto.
    - intros [o i'] [A B]. split; auto. intros id g sub Eg Es. eapply B; eauto.
  Qed.

  Lemma xrun_fine : forall P, Forall (reading_item glob) P -> forall f ins i, xsized P f i ->
    fine (xrun mode glob ext P f i ins) (fun _ => True).
  Proof.
    intros P F f. induction ins as [|v ins IH]; intros i I; cbn [xrun]; [cbn; auto|].
    eapply fine_bind; [apply xstep_fine; auto|]. intros [o i'] S'. eapply fine_bind; [apply IH; exact S'|]. intros [os i2] S2. cbn. auto.
  Qed.

  Lemma hists_sized : forall nd, NoDup (map v_name (all_vars nd)) -> sized_hists nd (init_hists nd).
  Proof.
    intros nd. unfold sized_hists, init_hists. generalize (all_vars nd). clear. induction l as [|w l IHl]; intros N v d J Ed; [destruct J|].
    inversion N; subst. cbn [flat_map]. destruct J as [->|J].
    + rewrite Ed. cbn. rewrite String.eqb_refl. eexists. split; eauto. rewrite hlist_empty, repeat_length. auto.
    + destruct (IHl H2 v d J Ed) as (h & L & Lh). exists h. split; auto. destruct (v_depth w); auto. cbn.
      destruct (String.eqb_spec (v_name v) (v_name w)) as [E'|]; auto. exfalso. apply H1. rewrite <- E'. apply in_map; auto.
  Qed.

  Lemma xinit_sized : forall P, Forall (reading_item glob) P -> forall f i, xinit P f = Ok i -> xsized P f i.
  Proof.
    induction P as [|d P IH]; intros F f i H; cbn [xinit xsized] in *; auto. inversion F as [|? ? W F']; subst. specialize (IH F').
    destruct (String.eqb f (item_name d)); auto. destruct d as [nd|x ins outs]; [|inversion H; eauto].
    destruct (mapM _ (n_regs nd)) as [regs|] eqn:Er; cbn [bind] in H; [|discriminate].
    destruct (mapM (xinit P) (n_blocks nd)) as [subs|] eqn:Es; cbn [bind] in H; [|discriminate]. inversion H; subst. cbn [i_hists i_subs]. split.
    - apply hists_sized. destruct W. auto.
    - intros id g sub Eg Esub. apply mapM_in in Es. destruct (forall2_nth_l _ _ _ Es _ _ Eg) as (j & Ej & Hj).
      rewrite Ej in Esub. inversion Esub; subst. eauto.
  Qed.
End XFine.

(** ** One node, in terms of the runs of its callees *)
Section One.
  Variable mode : ovf.
  Variable glob : ident -> option scalar.
  Variable start : ident -> res inst.
  Variable advance : ident -> inst -> val -> res (val * inst).
  Variable idle : ident -> res val.
  Variables (nd : node) (o : node_opts) (sn : snode).
  Hypothesis C : compiled_node o sn nd.
  Hypothesis U : o_universal o = false.
  Variables (F : ident -> list val -> val -> Prop) (N : ident -> val -> Prop).
  Hypothesis HF : forall g i0, In g (n_blocks nd) -> start g = Ok i0 -> forall args v, F g args v <-> exists os i', iter (advance g) i0 args = Ok (os ++ [v], i').
  Hypothesis HN : forall g i0, In g (n_blocks nd) -> start g = Ok i0 -> forall v, N g v <-> idle g = Ok v.

  Let call := acall advance nd.
  Let idl := aidle idle nd.

  Lemma xone_start : forall subs, mapM start (n_blocks nd) = Ok subs ->
    exists sub0, subs = map sub0 (seq 0 (length (n_blocks nd))) /\
      TranslateSem.agree (calls_op call sub0) (nilouts_op idl) F N (n_blocks nd).
  Proof.
    intros subs E0. set (d := Inst 0 [] [] [] []). set (sub0 := fun id => nth id subs d). exists sub0.
    pose proof (mapM_forall2 _ _ _ E0) as Fs.
    assert (Ls : length subs = length (n_blocks nd)) by (eapply mapM_length; eauto).
    split.
    - rewrite <- Ls. clear. unfold sub0. induction subs as [|s l IH]; simpl; auto. f_equal. rewrite <- seq_shift, map_map. auto.
    - intros id g Eg. destruct (forall2_nth_l _ _ _ Fs _ _ Eg) as (s0 & Ex & Ig). pose proof (nth_error_In _ _ Eg) as Ing.
      assert (Esub : sub0 id = s0) by (exact (nth_error_nth _ _ _ Ex)).
      assert (X : forall i args, iter (call id) i args = iter (advance g) i args).
      { intros. apply iter_ext. intros. unfold call, acall. rewrite Eg. auto. }
      split.
      + intros args w. unfold calls_op. rewrite Esub, (HF g s0 Ing Ig). split; intros (os & i1 & A); exists os, i1; rewrite X in *; auto.
      + intros w. unfold nilouts_op, idl, aidle. rewrite (HN g s0 Ing Ig), Eg. cbn [of_option bind]. tauto.
  Qed.

  Lemma xinstants_iff : forall sub0 rho, TranslateSem.agree (calls_op call sub0) (nilouts_op idl) F N (n_blocks nd) ->
    forall T v ot, instant mode glob call idl sub0 nd rho T v ot <->
      (declared (s_inputs sn) = [] \/ row (rho T) (declared (s_inputs sn)) v) /\
      (forall i, In i (s_defs sn) -> sstmt_holds mode glob (node_vars sn) rho F N T i /\
                                     stmt_settled mode glob (node_vars sn) rho F N T i) /\
      row (rho T) (declared (s_outputs sn)) ot.
  Proof.
    intros sub0 rho A T v ot. destruct (compiled_passed _ _ _ C) as (nd0 & stmts & Pa).
    pose proof (compiled_plain _ _ _ C U) as Pl. destruct (passed_names _ _ _ _ _ Pa) as (N1 & N2 & N3 & N4 & N5).
    rewrite <- N1, <- N2. unfold instant. split.
    - intros (In1 & Hs & Out). split; [apply inputs_row; auto|]. split; [|apply outputs_row; auto].
      intros i J. destruct (passed_source _ _ _ _ _ Pa _ J) as (i' & J' & Tr). rewrite U in Tr. destruct (Hs _ J') as [H1 H2]. split.
      + eapply translates_holds; eauto.
      + eapply translates_settled; eauto.
    - intros (In1 & Hs & Out). split; [apply row_inputs; auto|]. split; [|apply row_outputs; auto].
      intros i' J'. destruct (passed_target _ _ _ _ _ Pa Pl _ J') as (i & J & Tr). rewrite U in Tr. destruct (Hs _ J) as [H1 H2].
      assert (H1' : stmt_holds mode glob rho nok (calls_op call sub0) (nilouts_op idl) T i') by (eapply translates_holds; eauto).
      split; auto. eapply translates_settled; eauto.
  Qed.

  Lemma xone_run : forall regs0 subs ins outs, mapM start (n_blocks nd) = Ok subs -> Forall present ins ->
    let r := iter (node_step mode glob call idl nd) (Inst 0 (init_hists nd) regs0 (repeat flip_default (n_flips nd)) subs) ins in
    ((exists i', r = Ok (outs, i')) -> node_settles mode glob F N sn ins outs) /\
    (node_settles mode glob F N sn ins outs -> (exists i', r = Ok (outs, i')) \/ bad r).
  Proof.
    intros regs0 subs ins outs Hi Pr r. destruct (xone_start subs Hi) as (sub0 & -> & A).
    destruct (compiled_passed _ _ _ C) as (nd0 & stmts & Pa). pose proof (passed_wf _ _ _ _ _ Pa) as W.
    pose proof (compiled_plain _ _ _ C U) as Pl. split.
    - intros (i' & R). destruct (run_keeps mode glob call idl sub0 nd W Pl _ _ _ _ R Pr) as (rho & L & H).
      split; auto. exists rho. intros T v ot Hv Ho. apply (xinstants_iff sub0 rho A). auto.
    - intros (L & rho & H). apply (run_complete mode glob call idl sub0 nd W Pl rho ins outs 0); auto; [apply inv_start; auto|].
      intros k v ot Hv Ho. cbn [Nat.add]. apply (xinstants_iff sub0 rho A). auto.
  Qed.
End One.

(** ** Extern nodes *)
Lemma ext_bind_fits : forall outs w, NoDup (map v_name outs) -> forall st, (exists st', ext_bind outs w st = Ok st') <-> fits (map v_name outs) w.
Proof.
  intros outs w Nd st. destruct outs as [|a l]; [split; [left; auto|cbn; eauto]|]. split.
  - intros (st' & B). right. destruct (ext_bind_inv (a :: l) _ _ _ ltac:(discriminate) B) as (ns & -> & L). exists ns. rewrite map_length. auto.
  - intros [E|(ns & L & ->)]; [discriminate|]. rewrite map_length in L. destruct (ext_bind_ok (a :: l) ns st ltac:(auto) Nd) as (st' & B & _). eauto.
Qed.

Section ExtExact.
  Variables (b : behaviour) (x : ident) (ins outs : list tyvar).
  Hypothesis N : NoDup (map v_name (ins ++ outs)).
  Let Ni : NoDup (map v_name ins). Proof. rewrite map_app in N. eapply nodup_left; eauto. Qed.
  Let No : NoDup (map v_name outs). Proof. rewrite map_app in N. eapply nodup_right; eauto. Qed.

  Lemma ext_run_fits : forall vs past clk os i', Forall present vs -> iter (xext b x ins outs) (ext_inst past clk) vs = Ok (os, i') ->
    Forall (fits (map v_name ins)) vs.
  Proof.
    induction vs as [|v vs IH]; intros past clk os i' Pr R; constructor; inversion Pr as [|? ? Pv Pvs]; subst; cbn [iter] in R;
      rewrite xext_present in R by exact Pv; inv_ok; [|eapply IH; eauto].
    rewrite bind_inputs_ext in *. eapply ext_bind_fits; eauto.
  Qed.
  Lemma ext_run_back : forall vs past clk os, Forall present vs -> Forall (fits (map v_name ins)) vs -> length os = length vs ->
    (forall T v, nth_error vs T = Some v -> exists w ns, b (past ++ firstn T vs) v = Ok w /\
      length ns = length outs /\ nth_error os T = Some (tuple_val (map VS ns)) /\ (outs <> [] -> w = tuple_val (map VS ns))) ->
    exists i', iter (xext b x ins outs) (ext_inst past clk) vs = Ok (os, i').
  Proof.
    induction vs as [|v vs IH]; intros past clk os Pr Fi L H; [destruct os; [cbn; eauto|discriminate]|].
    destruct os as [|ov os]; [discriminate|]. inversion Pr as [|? ? Pv Pvs]; subst. inversion Fi as [|? ? Fv Fvs]; subst.
    cbn [iter]. rewrite xext_present by exact Pv. rewrite bind_inputs_ext. destruct (proj2 (ext_bind_fits ins v Ni []) Fv) as (st & ->). cbn [bind].
    destruct (H 0 v eq_refl) as (w & ns & Hb & Ln & Ho & Hw). cbn in Hb, Ho. rewrite app_nil_r in Hb. rewrite Hb. cbn [bind]. inversion Ho; subst ov.
    assert (X : exists st', ext_bind outs w st = Ok st' /\ read_outputs outs st' = Ok (tuple_val (map VS ns))).
    { destruct outs as [|a l] eqn:Eo; [destruct ns; [cbn; eauto|discriminate]|]. rewrite Hw by discriminate.
      destruct (ext_bind_ok (a :: l) ns st ltac:(auto) No) as (st' & B & R & _). eauto. }
    destruct X as (st' & B1 & R1). rewrite B1. cbn [bind]. rewrite R1. cbn [bind]. destruct (IH (past ++ [v]) (S clk) os Pvs Fvs) as (i' & R); [cbn in L; lia| |rewrite R; cbn; eauto].
    intros T u Hu. destruct (H (S T) u Hu) as (w' & ns' & A & B). exists w', ns'. cbn [firstn nth_error] in *. rewrite <- app_assoc. auto.
  Qed.

  Lemma ext_stutter_back : forall vs past clk pouts i',
    iter (xext b x ins outs) (ext_inst past clk) (filter (fun v => negb (first_is_nil v)) vs) = Ok (pouts, i') ->
    iter (xext b x ins outs) (ext_inst past clk) vs = Ok (weave (vars_nil outs) vs pouts, i').
  Proof.
    induction vs as [|v vs IH]; intros past clk pouts i' R; [cbn in *; inversion R; subst; auto|].
    cbn [iter filter weave] in *. destruct (first_is_nil v) eqn:V; cbn [negb] in R.
    - rewrite xext_absent by auto. cbn [bind]. rewrite (IH _ _ _ _ R). reflexivity.
    - cbn [iter] in R. rewrite xext_present in * by auto. inv_ok. rewrite E0. cbn [bind]. rewrite E1. cbn [bind]. rewrite E2. cbn [bind]. rewrite E3. cbn [bind].
      rewrite (IH _ _ _ _ E). reflexivity.
  Qed.
End ExtExact.

Section Exact.
  Variable mode : ovf.
  Variable glob : ident -> option scalar.
  Variable ext : ident -> behaviour.
  Variable p : sprog.
  Hypothesis Ext : forall x past v, ext x past v <> Panic PPast /\ ext x past v <> Panic PUnbound.
  Hypothesis Uniq : forall a b, In a p -> In b p -> introduces (snd a) = introduces (snd b) -> a = b.

  Lemma xsettles_mono : forall n m, n <= m -> forall f ins outs, xsettles mode glob ext p n f ins outs -> xsettles mode glob ext p m f ins outs.
  Proof.
    induction n as [|n IH]; intros m L f ins outs [H|H]; try (destruct m; left; exact H); [destruct H|].
    destruct m as [|m]; [lia|]. right. destruct H as (a & sn & pouts & I & E & M & W). exists a, sn, pouts. split; auto. split; auto. split; auto.
    eapply node_settles_mono; [| |exact M]; auto. intros g args v (os & D). exists os. apply (IH m); auto. lia.
  Qed.

  Lemma xfind : forall P g i, xinit P g = Ok i -> exists d, find_item P g = Some d /\ In d P /\ item_name d = g.
  Proof.
    induction P as [|d P IH]; intros g i H; cbn [xinit find_item] in *; [discriminate|]. destruct (String.eqb_spec g (item_name d)).
    - exists d. cbn. auto.
    - destruct (IH _ _ H) as (d' & A & B & D). exists d'. cbn. auto.
  Qed.
  Lemma silence_exact : forall P, Forall (from_decl p) P -> forall g i0, xinit P g = Ok i0 -> forall v, silence p g v <-> xnil_outputs P g = Ok v.
  Proof.
    intros P Src g i0 Hi v. split; [|apply silence_of; auto]. destruct (xfind _ _ _ Hi) as (d & Fd & Id & Nd).
    unfold xnil_outputs. rewrite Fd. cbn [of_option bind]. rewrite Forall_forall in Src. pose proof (Src _ Id) as S. destruct d as [nd|x ins outs]; cbn in S, Nd |- *.
    - destruct S as (o & a & sn & C & I & U). destruct (compiled_passed _ _ _ C) as (nd0 & stmts & Pa). destruct (passed_names _ _ _ _ _ Pa) as (_ & N2 & _ & N4 & _).
      rewrite vars_nil_names, N2. intros [(a' & sn' & I' & E' & ->)|(a' & i' & o' & I' & ->)].
      + assert (X : (a', XNode sn') = (a, XNode sn)) by (apply Uniq; auto; cbn; congruence). inversion X; subst. auto.
      + assert (X : (a', XExtNode g i' o') = (a, XNode sn)) by (apply Uniq; auto; cbn; congruence). discriminate X.
    - destruct S as (_ & a & i & o & I & -> & ->). subst x. rewrite vars_nil_names, tr_decls_names. intros [(a' & sn' & I' & E' & ->)|(a' & i' & o' & I' & ->)].
      + assert (X : (a', XNode sn') = (a, XExtNode g i o)) by (apply Uniq; auto; cbn; congruence). discriminate X.
      + assert (X : (a', XExtNode g i' o') = (a, XExtNode g i o)) by (apply Uniq; auto). inversion X; subst. auto.
  Qed.

  Hypothesis D : forall a sn, In (a, XNode sn) p -> with_universal a = false.

  Lemma items_exact : forall P, Forall (from_decl p) P -> Forall (reading_item glob) P ->
    forall f i ins outs, xinit P f = Ok i ->
    ((exists i', xrun mode glob ext P f i ins = Ok (outs, i')) -> xsettles mode glob ext p (length P) f ins outs) /\
    (forall n, xsettles mode glob ext p n f ins outs -> exists i', xrun mode glob ext P f i ins = Ok (outs, i')).
  Proof.
    induction P as [|d P IH]; intros Src Rd f i ins outs Hi; [discriminate|].
    pose proof (xrun_fine mode glob ext Ext _ Rd f (filter (fun v => negb (first_is_nil v)) ins) i (xinit_sized glob _ Rd _ _ Hi)) as Fine.
    inversion Src as [|? ? S1 S2]; subst. inversion Rd as [|? ? R1 R2]; subst. specialize (IH S2 R2).
    assert (Sx : forall i v, xstep mode glob ext (d :: P) f i v = if String.eqb f (item_name d) then match d with
          | INode nd => node_step mode glob (acall (xstep mode glob ext P) nd) (aidle (xnil_outputs P) nd) nd i v
          | IExt x ins outs => xext (ext x) x ins outs i v end else xstep mode glob ext P f i v) by reflexivity.
    rewrite xrun_iter in *. rewrite (iter_ext _ _ Sx) in *. clear Sx. cbn [xinit] in Hi.
    assert (Pr : Forall present (filter (fun v => negb (first_is_nil v)) ins)).
    { apply Forall_forall. intros v J. apply filter_In in J. destruct J as [_ J]. unfold present. destruct (first_is_nil v); auto. }
    destruct (String.eqb_spec f (item_name d)) as [->|Ne].
    - destruct d as [nd|x iv ov]; cbn [item_name] in *.
      + destruct S1 as (o & a & sn & C & I & U). rewrite (D _ _ I) in U. inv_ok. rename r into regs0, r0 into subs.
        rewrite (iter_stutter _ (vars_nil (n_outputs nd))); [|intros i0 v V; unfold node_step; rewrite V; auto].
        destruct (compiled_passed _ _ _ C) as (nd0 & stmts & Pa). destruct (passed_names _ _ _ _ _ Pa) as (N1 & N2 & N3 & N4 & N5).
        rewrite vars_nil_names, N2. set (pins := filter (fun v => negb (first_is_nil v)) ins) in *.
        assert (HN : forall g i0, In g (n_blocks nd) -> xinit P g = Ok i0 -> forall v, silence p g v <-> xnil_outputs P g = Ok v).
        { intros g i0 _ Ig v. eapply silence_exact; eauto. }
        set (F := fun g args v => exists n os, xsettles mode glob ext p n g args (os ++ [v])).
        assert (HF : forall g i0, In g (n_blocks nd) -> xinit P g = Ok i0 -> forall args v, F g args v <-> exists os i', iter (xstep mode glob ext P g) i0 args = Ok (os ++ [v], i')).
        { intros g i0 _ Ig args v. unfold F. split.
          - intros (n & os & H). exists os. setoid_rewrite <- xrun_iter. eapply (IH g i0 args _ Ig); eauto.
          - intros (os & i' & H). exists (length P), os. apply (IH g i0 args _ Ig). rewrite <- xrun_iter in H. eauto. }
        split.
        * intros (i' & R). apply bind_ok in R. destruct R as ([os i1] & R & R3). inversion R3; subst. clear R3.
          right. exists a, sn, os. split; auto. split; [congruence|]. split; auto.
          set (Fl := fun g args v => exists os, xsettles mode glob ext p (length P) g args (os ++ [v])).
          assert (HF' : forall g i0, In g (n_blocks nd) -> xinit P g = Ok i0 -> forall args v, Fl g args v <-> exists os i', iter (xstep mode glob ext P g) i0 args = Ok (os ++ [v], i')).
          { intros g i0 _ Ig args v. unfold Fl. split.
            - intros (os' & H). exists os'. setoid_rewrite <- xrun_iter. eapply (IH g i0 args _ Ig); eauto.
            - intros (os' & i2 & H). exists os'. apply (IH g i0 args _ Ig). rewrite <- xrun_iter in H. eauto. }
          apply (xone_run mode glob _ _ _ nd o sn C U Fl (silence p) HF' HN regs0 subs pins os E0 Pr). eauto.
        * intros n H. assert (H' : xsettles mode glob ext p (S n) (n_name nd) ins outs) by (eapply xsettles_mono; [|exact H]; lia).
          destruct H' as [(a' & i' & o' & pouts & I' & _)|(a' & sn' & pouts & I' & E' & M & ->)].
          { assert (X : (a', XExtNode (n_name nd) i' o') = (a, XNode sn)) by (apply Uniq; auto; cbn; congruence). discriminate X. }
          assert (X : (a', XNode sn') = (a, XNode sn)) by (apply Uniq; auto; cbn; congruence). inversion X; subst a' sn'.
          destruct (proj2 (xone_run mode glob _ _ _ nd o sn C U F (silence p) HF HN regs0 subs pins pouts E0 Pr)) as [(i' & R)|B].
          { eapply node_settles_mono; [| |exact M]; auto. intros g args v (os & Q). exists n, os. auto. }
          -- exists i'. match goal with |- bind ?x _ = _ => replace x with (Ok (pouts, i')) by (symmetry; exact R) end. reflexivity.
          -- exfalso. match type of Fine with fine ?x _ => assert (Q : x = Panic PPast \/ x = Panic PUnbound) by exact B end.
             destruct Q as [Q|Q]; rewrite Q in Fine; cbn in Fine; tauto.
      + inversion Hi; subst i. destruct S1 as (Nn & a & si & so & I & -> & ->).
        assert (Nd : NoDup (map v_name (tr_decls so))) by (rewrite map_app in Nn; eapply nodup_right; eauto).
        split.
        * intros (i' & R). destruct (ext_stutter _ _ _ _ _ _ _ _ _ R) as (po & Rp & ->).
          left. exists a, si, so, po. split; auto. split; [rewrite <- tr_decls_names; eapply ext_run_fits; eauto|].
          split; [|rewrite vars_nil_names, tr_decls_names; auto].
          destruct (ext_run _ _ _ _ Nd _ _ _ _ _ Pr Rp) as (_ & L & H). split; auto. intros T v Hv. destruct (H _ _ Hv) as (w & ns & A & B & C & Q).
          rewrite <- tr_decls_names, map_length. exists w, ns. repeat split; auto. intros Ne. apply Q. intros Z. apply Ne. rewrite Z. auto.
        * intros n H. assert (H' : xsettles mode glob ext p (S n) x ins outs) by (eapply xsettles_mono; [|exact H]; lia).
          destruct H' as [(a' & i' & o' & pouts & I' & Fi & (L & M) & ->)|(a' & sn' & pouts & I' & E' & _)].
          2: { assert (X : (a', XNode sn') = (a, XExtNode x si so)) by (apply Uniq; auto; cbn; congruence). discriminate X. }
          assert (X : (a', XExtNode x i' o') = (a, XExtNode x si so)) by (apply Uniq; auto). inversion X; subst a' i' o'.
          destruct (ext_run_back (ext x) x (tr_decls si) (tr_decls so) Nn (filter (fun v => negb (first_is_nil v)) ins) [] 0 pouts) as (i' & R); auto.
          { rewrite tr_decls_names. auto. }
          { intros T v Hv. destruct (M _ _ Hv) as (w & ns & A & B & C & Q). exists w, ns. rewrite <- (map_length v_name (tr_decls so)), tr_decls_names.
            repeat split; auto. intros Ne. apply Q. rewrite <- tr_decls_names. intros Z. apply Ne. apply map_eq_nil in Z. auto. }
          exists i'. rewrite <- tr_decls_names, <- vars_nil_names. apply ext_stutter_back; auto.
    - setoid_rewrite <- xrun_iter. destruct (IH f i ins outs Hi) as [A B]. split; auto.
      intros H. apply (xsettles_mono (length P)); [simpl; lia|]. auto.
  Qed.
End Exact.

Lemma default_universal : forall p, default_mode p -> forall a sn, In (a, XNode sn) p -> with_universal a = false.
Proof.
  intros p Dm a sn I. destruct (with_universal a) eqn:E; auto. exfalso. unfold with_universal in E. apply existsb_exists in E. destruct E as (t & J & E).
  apply String.eqb_eq in E. apply (Dm a sn I). rewrite <- E. apply in_map. auto.
Qed.

Theorem extern_exact : forall mode glob ext p l, result (pipeline p) = Some l -> default_mode p ->
  (forall x t, constant p x t -> glob x <> None) ->
  (forall x past v, ext x past v <> Panic PPast /\ ext x past v <> Panic PUnbound) ->
  forall f ins outs, xoutputs mode glob ext (items_of l) f ins = Ok outs <-> xmeans_strictly mode glob ext p f ins outs.
Proof.
  intros mode glob ext p l H Dm Hc Ex f ins outs.
  assert (Src := pipeline_items _ _ H).
  assert (Rd : Forall (reading_item glob) (items_of l)).
  { assert (Rn : Forall (reading_node glob) (nodes_of l)).
    { apply (program_reading glob p l H Hc). intros a sn I J. exfalso. eapply Dm; eauto. }
    rewrite Forall_forall in Rn, Src. apply Forall_forall. intros d J. pose proof (Src d J) as S. apply in_items in J. destruct d; cbn; [auto|]. apply S. }
  assert (Un : forall a b, In a p -> In b p -> introduces (snd a) = introduces (snd b) -> a = b).
  { destruct (proj1 (accepted_well_formed p) (ex_intro _ l H)) as (_ & Nd & _). clear - Nd. induction p as [|c p IH]; intros a b I J E; [destruct I|].
    inversion Nd; subst. destruct I as [<-|I], J as [<-|J]; auto; exfalso; apply H1; [rewrite E|rewrite <- E]; apply (in_map (fun a => introduces (snd a))); auto. }
  pose proof (items_exact mode glob ext p Ex Un (default_universal _ Dm) _ Src Rd f) as G. unfold xoutputs. split.
  - intros R. apply bind_ok in R. destruct R as (i & Hi & R). apply bind_ok in R. destruct R as ([os i'] & R & E). inversion E; subst.
    exists (length (items_of l)). apply (G i ins outs Hi). eauto.
  - intros (n & S). assert (Dc : exists a, In a p /\ introduces (snd a) = Node f).
    { destruct n; destruct S as [(a & i & o & po & I & _)|S]; try (exists (a, XExtNode f i o); auto; fail); [destruct S|].
      destruct S as (a & sn & po & I & <- & _). exists (a, XNode sn). auto. }
    destruct Dc as (a & Ia & Ea). destruct (accepted_init _ _ H a f Ia Ea) as (i & Hi). rewrite Hi. cbn [bind].
    destruct (proj2 (G i ins outs Hi) n S) as (i' & ->). reflexivity.
Qed.

Theorem extern_fails : forall mode glob ext p l, result (pipeline p) = Some l -> default_mode p ->
  (forall x t, constant p x t -> glob x <> None) ->
  (forall x past v, ext x past v <> Panic PPast /\ ext x past v <> Panic PUnbound) ->
  forall f ins, (exists e, xoutputs mode glob ext (items_of l) f ins = Panic e) <-> ~ exists outs, xmeans_strictly mode glob ext p f ins outs.
Proof.
  intros mode glob ext p l H Dm Hc Ex f ins. pose proof (extern_exact mode glob ext p l H Dm Hc Ex f ins) as G. split.
  - intros (e & R) (outs & M). apply G in M. congruence.
  - intros Q. destruct (xoutputs mode glob ext (items_of l) f ins) as [outs|e] eqn:R; eauto. exfalso. apply Q. exists outs. apply G. auto.
Qed.
