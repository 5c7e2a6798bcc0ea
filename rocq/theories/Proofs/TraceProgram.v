(** * Traces of accepted programs. *)
From Coq Require Import String Ascii List ZArith Bool Arith Lia Permutation.
From Coq Require Import Floats.SpecFloat.
From Verif Require Import Model.Base Model.Scalar Model.Value Model.Ast Model.Errors Model.Interp Model.Options Model.Surface Model.Translate
  Model.Causality Model.Pipeline Model.Names Model.Codegen Model.Trace
  Spec.StepSpec Spec.TranslateSpec Spec.SurfaceSem Spec.ProgramSem Spec.SourceCausal Spec.TraceSpec
  Spec.AttrSpec Proofs.Attrs Proofs.OutBasics Proofs.InterpBasics Proofs.StepProofs Proofs.CoreProofs Proofs.CoreNode Proofs.TranslateStruct Proofs.NodeWf Proofs.PipelineProofs Proofs.ProgramProofs Proofs.SourceCausality Proofs.TraceText Proofs.Traces.
Import ListNotations.
Local Open Scope list_scope.

Lemma compiled_assigned : forall o sn nd, compiled_node o sn nd -> forall x, In x (n_locals nd ++ n_outputs nd) -> assigned nd (v_name x).
Proof.
  intros o sn nd C x I. destruct (compiled_passed _ _ _ C) as (nd0 & stmts & P).
  pose proof (passed_names _ _ _ _ _ P) as (_ & No & Nl & _).
  assert (S : solvable sn).
  { destruct C as (a & b & c & d & gl & fu & ge & T & Ca & _). apply (causality_source _ _ _ T). eauto. }
  destruct S as (_ & _ & S & _).
  assert (J : In (v_name x) (declared (s_outputs sn) ++ declared (s_locals sn))).
  { rewrite <- No, <- Nl. rewrite in_app_iff in *. destruct I as [I|I]; [right|left]; apply in_map; auto. }
  apply S in J. apply in_flat_map in J. destruct J as (i & Ii & J).
  destruct (passed_source _ _ _ _ _ P _ Ii) as (i' & I' & (t & t' & e' & bl & Tr & _)).
  destruct i as [pt e|]; cbn in J; [|destruct J]. destruct Tr as [_ E]. cbn in E.
  exists (tr_target pt), e'. subst i'. split; auto. rewrite pattern_targets. auto.
Qed.

(** ** Which formats are accepted *)
Local Open Scope string_scope.

Lemma shown_app : forall env a t b t', shown env a t -> shown env b t' -> shown env (a ++ b) (t ++ t').
Proof.
  intros env a t b t' A B. induction A as [|c s t c1 c2 A IH|s t A IH|s t A IH|x v s t Ix V A IH].
  - exact B.
  - apply (shown_char env c _ _ c1 c2 IH).
  - apply (shown_open env _ _ IH).
  - apply (shown_close env _ _ IH).
  - rewrite !append_assoc. apply (shown_var env x v _ _ Ix V IH).
Qed.
Lemma acceptable_app : forall names a b, acceptable names a -> acceptable names b -> acceptable names (a ++ b).
Proof. intros names a b (t & A) (t' & B). exists (t ++ t'). apply shown_app; auto. Qed.
Lemma acceptable_var : forall names x, is_ident x = true -> In x names -> acceptable names ("{" ++ x ++ "}").
Proof.
  intros names x Ix I. exists ("" ++ "")%string. change ("{" ++ x ++ "}") with ("{" ++ x ++ "}" ++ "").
  apply shown_var; auto; [|constructor]. replace (existsb (String.eqb x) names) with true; auto.
  symmetry. apply existsb_names. auto.
Qed.
Lemma acceptable_plain : forall names a, all_chars (fun c => negb (Ascii.eqb c "{") && negb (Ascii.eqb c "}"))%bool a = true -> acceptable names a.
Proof.
  induction a as [|c a IH]; cbn [all_chars]; intros H; [exists ""; constructor|].
  apply andb_prop in H. destruct H as [H1 H]. apply andb_prop in H1. destruct H1 as [H1 H2].
  destruct (IH H) as (t & A). exists (String c t). constructor; auto; intros ->; discriminate.
Qed.

Lemma acceptable_fields : forall names l, (forall v, In v l -> is_ident (v_name v) = true /\ In (v_name v) names) -> acceptable names (fmt_strings l).
Proof.
  intros names l H. unfold fmt_strings. apply acceptable_app; [apply acceptable_plain; reflexivity|].
  apply acceptable_app; [|apply acceptable_plain; reflexivity].
  assert (F : forall v, In v l -> acceptable names (v_name v ++ "={" ++ v_name v ++ "}")).
  { intros v I. destruct (H v I) as [Ix J]. apply acceptable_app; [apply acceptable_plain, ident_plain; auto|].
    change ("={" ++ v_name v ++ "}") with ("=" ++ ("{" ++ v_name v ++ "}")).
    apply acceptable_app; [apply acceptable_plain; reflexivity|]. apply acceptable_var; auto. }
  clear H. induction l as [|v l IH]; [exists ""; constructor|].
  destruct l as [|w l]; [cbn [map String.concat]; apply F; left; auto|].
  change (acceptable names ((v_name v ++ "={" ++ v_name v ++ "}") ++ ", " ++
            String.concat ", " (map (fun v => v_name v ++ "={" ++ v_name v ++ "}") (w :: l)))).
  apply acceptable_app; [apply F; left; auto|]. apply acceptable_app; [apply acceptable_plain; reflexivity|].
  apply IH. intros u I. apply F. right. auto.
Qed.

Lemma acceptable_format : forall names arrow f l, (arrow = "<-" \/ arrow = "->") -> (forall x, In x special -> In x names) ->
  (forall s, f = TfStr s -> acceptable names s) ->
  (f = TfDefault -> forall v, In v l -> is_ident (v_name v) = true /\ In (v_name v) names) ->
  acceptable names (format_string arrow f l).
Proof.
  intros names arrow f l Ar Sp St D. destruct f as [| |s]; cbn [format_string].
  - change "{_ext}{_this} " with (("{" ++ "_ext" ++ "}") ++ ("{" ++ "_this" ++ "}") ++ " ").
    apply acceptable_app; [apply acceptable_app; [|apply acceptable_app]|].
    + apply acceptable_var; [reflexivity|]. apply Sp. cbn. auto.
    + apply acceptable_var; [reflexivity|]. apply Sp. cbn. auto.
    + apply acceptable_plain. reflexivity.
    + apply acceptable_app; [destruct Ar; subst; apply acceptable_plain; reflexivity|].
      apply acceptable_app; [apply acceptable_plain; reflexivity|].
      apply acceptable_app; [apply acceptable_fields; auto|apply acceptable_plain; reflexivity].
  - apply acceptable_plain. reflexivity.
  - apply St. auto.
Qed.

Lemma accepted_printable : forall p l, result (pipeline p) = Some l -> forall o nd, In (DNode o nd) l -> formats_ok (o_trace o) nd -> printable (o_trace o) nd.
Proof.
  intros p l H o nd I F. destruct (pipeline_origin _ _ H _ _ I) as (a & sn & d & _ & _ & _ & C).
  destruct (o_trace o) as [[file [ifmt ofmt]]|]; cbn [formats_ok printable] in *; auto. destruct F as (F1 & F2 & F3 & F4).
  split; [|split].
  - apply acceptable_format; auto.
    + intros x J. apply in_app_iff. auto.
    + intros E v J. split; auto. apply in_app_iff. right. apply in_map. auto.
  - apply acceptable_format; auto.
    + intros x J. apply in_app_iff. auto.
    + intros E v J. split; auto. apply in_app_iff. right. apply in_map. rewrite !in_app_iff. auto.
  - eapply compiled_assigned; eauto.
Qed.

Lemma tnodes_in : forall l t nd, In (t, nd) (tnodes_of l) <-> exists o, In (DNode o nd) l /\ o_trace o = t.
Proof.
  intros l t nd. unfold tnodes_of. rewrite <- in_rev, in_flat_map. split.
  - intros (d & I & J). destruct d; cbn in J; try contradiction. destruct J as [E|[]]. inversion E; subst. eauto.
  - intros (o & I & <-). exists (DNode o nd). split; auto. left. auto.
Qed.
Lemma untraced_nodes : forall l, untraced (tnodes_of l) = nodes_of l.
Proof.
  intros l. unfold untraced, tnodes_of, nodes_of. rewrite map_rev. f_equal.
  induction l as [|[] l IH]; cbn; auto. f_equal. auto.
Qed.

Theorem accepted_transparent : forall fshow mode glob p l, result (pipeline p) = Some l ->
  (forall o nd, In (DNode o nd) l -> formats_ok (o_trace o) nd) ->
  (forall f i ins, snd (trun fshow mode glob (tnodes_of l) f i ins) = run mode glob (nodes_of l) f i ins) /\
  (forall f i n, snd (tmain_for fshow mode glob (tnodes_of l) f n i) = main_for mode glob (nodes_of l) f n i).
Proof.
  intros fshow mode glob p l H F. rewrite <- untraced_nodes.
  destruct (transparent fshow mode glob (tnodes_of l)) as (_ & A & B); auto.
  intros t nd I. apply tnodes_in in I. destruct I as (o & I & <-). eapply accepted_printable; eauto.
Qed.

(** ** What the lines show *)
Section Meaning.
  Variables (fshow : spec_float -> string) (mode : ovf) (glob : ident -> option scalar).

  Lemma tstep_ok : forall p f i v r, snd (tstep fshow mode glob p f i v) = Ok r -> step mode glob (untraced p) f i v = Ok r.
  Proof.
    intros p f i v r H. apply (tstep_erase (fun A x y => forall a, x = Ok a -> y = Ok a)) with (fshow := fshow) (f := f) (i := i) (v := v) (p := p); auto.
    - intros A B x y g h H1 H2 b E. destruct x as [a|]; [|discriminate]. rewrite (H1 a eq_refl). simpl. apply H2; auto.
    - intros o nd _. split.
      + intros clk inputs st _ A x a E. destruct (snd _) in E; [auto|discriminate].
      + intros mode' glob' clk hists call nilout inputs st regs es st' regs' es' _ _ A x a E. destruct (snd _) in E; [auto|discriminate].
  Qed.

  (** The two lines of a step show the values that it computes. *)
  Lemma tnode_store : forall p o nd i v out r i' file ifmt ofmt st0 ssf, o = (file, (ifmt, ofmt)) -> first_is_nil v = false ->
    tnode_step fshow mode glob
      (fun id i v => match nth_error (n_blocks nd) id with Some g => tstep fshow mode glob p g i v | None => lift (Panic PType) end)
      (callee_nil (untraced p) nd) (Some o) nd i v = (out, Ok (r, i')) ->
    step_ok mode glob (callee mode glob (untraced p) nd) (callee_nil (untraced p) nd) nd i v st0 ssf r i' ->
    exists first body last, out = ((file, first) :: body ++ [(file, last)])%list /\
      shown (scope fshow "      " (n_name nd) (i_clock i) (fun x => lookup x st0) (map v_name (n_inputs nd))) (format_string "<-" ifmt (n_inputs nd)) first /\
      shown (scope fshow "      " (n_name nd) (i_clock i) (fun x => lookup x (ss_store ssf)) (map v_name (n_inputs nd ++ n_locals nd ++ n_outputs nd)))
        (format_string "->" ofmt (n_outputs nd)) last.
  Proof.
    intros p o nd (clk, hists, regs, flips, subs) v out r i' file ifmt ofmt st0 ssf -> V H (h' & B1 & B2 & _). unfold tnode_step in H. rewrite V in H.
    apply tbind_ok in H. destruct H as (o1 & st & o2 & E1 & H & ->). apply lift_ok in E1. destruct E1 as [-> E1]. rewrite E1 in B1. inversion B1; subst st0.
    apply tbind_ok in H. destruct H as (o3 & u & o4 & T1 & H & ->).
    apply tbind_ok in H. destruct H as (body & (st', regs', (flips', subs')) & o6 & X & H & ->).
    apply tbind_ok in H. destruct H as (o7 & u' & o8 & T2 & H & ->).
    apply tbind_ok in H. destruct H as (o9 & h & o10 & E2 & H & ->). apply lift_ok in E2. destruct E2 as [-> E2].
    apply tbind_ok in H. destruct H as (o11 & out & o12 & E3 & H & ->). apply lift_ok in E3. destruct E3 as [-> E3].
    inversion H; subst.
    apply trace_shown in T1. destruct T1 as (first & -> & T1). apply trace_shown in T2. destruct T2 as (last & -> & T2).
    exists first, body, last. rewrite !app_nil_r. split; auto. split; auto.
    assert (X' : execs mode glob clk hists (callee mode glob (untraced p) nd) (callee_nil (untraced p) nd) (n_stmts nd) (mkSs st regs (mkEs flips subs)) = Ok (mkSs st' regs' (mkEs flips' subs'))).
    { apply (texecs_erase (fun A x y => forall a, x = Ok a -> y = Ok a)) with
        (tcall := fun id i v => match nth_error (n_blocks nd) id with Some g => tstep fshow mode glob p g i v | None => lift (Panic PType) end); auto.
      - intros A B x y g k H1 H2 b E. destruct x as [a|]; [|discriminate]. rewrite (H1 a eq_refl). simpl. apply H2; auto.
      - intros id i0 v0 a E. unfold callee. destruct (nth_error (n_blocks nd) id); [apply tstep_ok; auto|discriminate].
      - rewrite X. auto. }
    cbn [i_clock i_hists i_regs i_flips i_subs] in B2. rewrite X' in B2. inversion B2; subst. exact T2.
  Qed.

  Lemma step_ok_step : forall call nilout nd i v st0 ssf o i', first_is_nil v = false ->
    step_ok mode glob call nilout nd i v st0 ssf o i' -> node_step mode glob call nilout nd i v = Ok (o, i').
  Proof.
    intros call nilout nd (clk, hists, regs, flips, subs) v st0 (st, rg, (fl, sb)) o i' V (h & B1 & B2 & B3 & B4 & ->). unfold node_step. rewrite V, B1.
    cbn [bind]. cbn [i_clock i_hists i_regs i_flips i_subs ss_store ss_regs ss_es es_flips es_subs] in *. rewrite B2. cbn [bind]. rewrite B3. cbn [bind]. rewrite B4. reflexivity.
  Qed.

  (** Absent instants leave no trace. *)
  Lemma trun_present : forall p f o nd ins i out outs i', traced p f = Some (o, nd) ->
    trun fshow mode glob p f i ins = (out, Ok (outs, i')) ->
    exists pouts, trun fshow mode glob p f i (filter (fun v => negb (first_is_nil v)) ins) = (out, Ok (pouts, i')) /\
      outs = weave (vars_nil (n_outputs nd)) ins pouts.
  Proof.
    intros p f o nd ins. induction ins as [|v ins IH]; intros i out outs i' F H; cbn [trun] in H.
    - inversion H; subst. exists []. auto.
    - apply tbind_ok in H. destruct H as (o1 & (r, i1) & o2 & E1 & H & ->).
      apply tbind_ok in H. destruct H as (o3 & (rs, i2) & o4 & E2 & H & ->). inversion H; subst. rewrite app_nil_r.
      destruct (IH _ _ _ _ F E2) as (pouts & R & ->). cbn [filter weave]. destruct (first_is_nil v) eqn:V; cbn [negb].
      + rewrite (tstep_absent _ _ _ _ _ _ _ _ _ F V) in E1. inversion E1; subst. exists pouts. auto.
      + exists (r :: pouts). split; auto. cbn [trun]. rewrite E1. cbn [tbind]. rewrite R. cbn [tbind tret]. rewrite app_nil_r. auto.
  Qed.

  Lemma trun_states : forall p f ins i out outs i' (I : nat -> inst),
    trun fshow mode glob p f i ins = (out, Ok (outs, i')) -> I 0 = i ->
    (forall T v, nth_error ins T = Some v -> exists o, step mode glob (untraced p) f (I T) v = Ok (o, I (S T))) ->
    exists ls, out = concat ls /\ length ls = length ins /\
      forall T v l, nth_error ins T = Some v -> nth_error ls T = Some l ->
        exists r, tstep fshow mode glob p f (I T) v = (l, Ok (r, I (S T))) /\ nth_error outs T = Some r.
  Proof.
    intros p f ins. induction ins as [|v ins IH]; intros i out outs i' I H I0 St; cbn [trun] in H.
    - inversion H; subst. exists []. repeat split; auto. intros [|T] v l E; discriminate.
    - apply tbind_ok in H. destruct H as (o1 & (r, i1) & o2 & E1 & H & ->).
      apply tbind_ok in H. destruct H as (o3 & (rs, i2) & o4 & E2 & H & ->). inversion H; subst. rewrite app_nil_r.
      assert (E : i1 = I 1).
      { destruct (St 0 v eq_refl) as (o & Es). assert (X : step mode glob (untraced p) f (I 0) v = Ok (r, i1)) by (apply tstep_ok; rewrite E1; auto). congruence. }
      subst i1. destruct (IH (I 1) o3 rs i' (fun T => I (S T)) E2 eq_refl) as (ls & -> & L & K).
      { intros T w Hw. apply (St (S T) w Hw). }
      exists (o1 :: ls). split; auto. split; [simpl; congruence|]. intros [|T] w l Hw Hl; simpl in Hw, Hl.
      + inversion Hw; inversion Hl; subst. exists r. auto.
      + apply (K T w l Hw Hl).
  Qed.

  Theorem lines_streams : forall nodes p, Forall (from_source nodes) (untraced p) ->
    forall f file ifmt ofmt nd i ins out outs i',
    traced p f = Some (Some (file, (ifmt, ofmt)), nd) -> init_inst (untraced p) f = Ok i ->
    trun fshow mode glob p f i ins = (out, Ok (outs, i')) ->
    exists sn rho pouts ls, In sn nodes /\ s_name sn = f /\ 
      streams mode glob nodes sn (filter (fun v => negb (first_is_nil v)) ins) pouts rho /\
      outs = weave (absent_row (declared (s_outputs sn))) ins pouts /\
      out = concat ls /\ length ls = actives ins /\
      forall T l, nth_error ls T = Some l -> exists first body last, l = ((file, first) :: body ++ [(file, last)])%list /\
        shown (scope fshow "      " f T (rho T) (declared (s_inputs sn))) (format_string "<-" ifmt (n_inputs nd)) first /\
        shown (scope fshow "      " f T (rho T) (declared (s_inputs sn) ++ declared (s_locals sn) ++ declared (s_outputs sn)))
          (format_string "->" ofmt (n_outputs nd)) last.
  Proof.
    intros nodes p. induction p as [|(o, nd0) p IH]; intros Src f file ifmt ofmt nd i ins out outs i' F Hi R; [discriminate|].
    inversion Src as [|? ? S1 S2]; subst. cbn [traced] in F.
    destruct (String.eqb f (n_name nd0)) eqn:E.
    - apply String.eqb_eq in E. inversion F; subst. clear F. cbn [untraced map snd] in *.
      assert (F : traced ((Some (file, (ifmt, ofmt)), nd) :: p) (n_name nd) = Some (Some (file, (ifmt, ofmt)), nd)) by (cbn; rewrite String.eqb_refl; auto).
      destruct (trun_present _ _ _ _ _ _ _ _ _ F R) as (pouts & Rp & ->).
      set (pins := filter (fun v => negb (first_is_nil v)) ins) in *.
      assert (Pr : Forall present pins).
      { apply Forall_forall. intros v J. apply filter_In in J. destruct J as [_ J]. unfold present. destruct (first_is_nil v); auto. }
      destruct S1 as (op & sn & C & U & Isn).
      destruct (compiled_passed _ _ _ C) as (ndx & stmts & Pa). destruct (passed_names _ _ _ _ _ Pa) as (N1 & N2 & N3 & N4 & N5).
      pose proof (passed_wf _ _ _ _ _ Pa) as W.
      assert (Rr : run mode glob (nd :: untraced p) (n_name nd) i pins = Ok (pouts, i')) by (apply (tres_ok fshow mode glob ((Some (file, (ifmt, ofmt)), nd) :: p)); rewrite Rp; auto).
      destruct (node_streams mode glob nd (untraced p) op sn C U i pins pouts i' Hi Rr Pr) as (L & rho & Eq & I & I0 & St).
      assert (Pv : forall T v, nth_error pins T = Some v -> first_is_nil v = false).
      { intros T v Hv. apply nth_error_In in Hv. rewrite Forall_forall in Pr. apply Pr. auto. }
      destruct (trun_states _ _ pins i out pouts i' I Rp I0) as (ls & -> & Ll & K).
      { intros T v Hv. destruct (St T v Hv) as (st0 & ssf & oo & _ & So & _). exists oo. cbn [untraced map snd step]. rewrite String.eqb_refl.
        apply (step_ok_step _ _ _ _ _ _ _ _ _ (Pv _ _ Hv) So). }
      exists sn, rho, pouts, ls. split; auto. split; [congruence|]. split; [|split; [rewrite vars_nil_names, N2; auto|split; [auto|split; [auto|]]]].
      + split; auto. intros T v ot Hv Ho. destruct (Eq T v ot Hv Ho) as (A & B & D). split; auto. split; auto.
        intros s J. eapply sstmt_mono; [| |apply B; auto].
        * intros g args w (i0 & os & i1 & X & Y). exists os. exists (length (untraced p)). eapply prog_sound; eauto.
        * intros g w X. unfold absent_answer, nil_outputs in X.
          destruct (find_node (untraced p) g) as [[n' P'']|] eqn:Fg; [|discriminate]. cbn in X. inversion X; subst.
          apply find_node_in in Fg. destruct Fg as [Ig Ng]. rewrite Forall_forall in S2. destruct (S2 _ Ig) as (o' & sn' & C' & U' & J').
          destruct (compiled_passed _ _ _ C') as (nd0' & stmts' & Pa'). destruct (passed_names _ _ _ _ _ Pa') as (N1' & N2' & N3' & N4' & N5').
          exists sn'. split; auto. split; [congruence|]. rewrite vars_nil_names, N2'. auto.
      + intros T l Hl.
        destruct (nth_error pins T) as [v|] eqn:Hv; [|exfalso; apply nth_error_None in Hv; assert (T < length ls) by (apply nth_error_Some; congruence); lia].
        destruct (St T v Hv) as (st0 & ssf & oo & Ho & So & Ck & Rho).
        destruct (K T v l Hv Hl) as (r & Ts & Hr). assert (r = oo) by congruence. subst r.
        cbn [tstep] in Ts. rewrite String.eqb_refl in Ts.
        destruct (tnode_store p (file, (ifmt, ofmt)) nd (I T) v l oo (I (S T)) file ifmt ofmt st0 ssf eq_refl (Pv _ _ Hv) Ts So) as (first & body & last & -> & Sh1 & Sh2).
        exists first, body, last. split; auto. rewrite Ck in Sh1, Sh2. rewrite <- N1, <- N2, <- N3. split.
        * eapply shown_ext; [|exact Sh1]. intros x. unfold scope. destruct (existsb (String.eqb x) (map v_name (n_inputs nd))) eqn:Ex; auto.
          apply existsb_names in Ex. f_equal. rewrite Rho. destruct So as (h & B1 & B2 & _). destruct ssf as [st rg es]. symmetry.
          apply (Traces.execs_store _ _ _ _ _ _ _ _ _ _ _ _ _ B2). intros t e J Jx.
          assert (Wd : forall x, In x (map v_name (n_inputs nd)) -> ~ In x (flat_map stmt_targets (n_stmts nd))).
          { apply (nodup_str_app _ _ (wf_targets _ W)). }
          apply (Wd x Ex). apply in_flat_map. exists (SLet t e). auto.
        * eapply shown_ext; [|exact Sh2]. intros x. rewrite !map_app. unfold scope. destruct (existsb _ _); auto. rewrite Rho. auto.
    - apply (IH S2 f file ifmt ofmt nd i ins out outs i' F).
      + cbn [untraced map snd init_inst] in Hi. rewrite E in Hi. exact Hi.
      + rewrite <- R. clear - E. revert i. induction ins as [|v ins IHi]; intros i; cbn [trun]; auto. cbn [tstep]. rewrite E.
        destruct (tstep fshow mode glob p f i v) as [o1 [[r i1]|]]; cbn [tbind]; auto. rewrite IHi. auto.
  Qed.
End Meaning.

Theorem traces_show : forall fshow mode glob p l f file ifmt ofmt nd i ins out outs i',
  result (pipeline p) = Some l ->
  (forall a sn, In (a, XNode sn) p -> ~ In "universal_pre"%string (map a_action a)) ->
  traced (tnodes_of l) f = Some (Some (file, (ifmt, ofmt)), nd) -> init_inst (nodes_of l) f = Ok i ->
  trun fshow mode glob (tnodes_of l) f i ins = (out, Ok (outs, i')) ->
  exists sn rho pouts ls, In sn (source_nodes p) /\ s_name sn = f /\ 
    streams mode glob (source_nodes p) sn (filter (fun v => negb (first_is_nil v)) ins) pouts rho /\
    outs = weave (absent_row (declared (s_outputs sn))) ins pouts /\
    out = concat ls /\ length ls = actives ins /\
    forall T l, nth_error ls T = Some l -> exists first body last, l = ((file, first) :: body ++ [(file, last)])%list /\
      shown (scope fshow "      " f T (rho T) (declared (s_inputs sn))) (format_string "<-" ifmt (n_inputs nd)) first /\
      shown (scope fshow "      " f T (rho T) (declared (s_inputs sn) ++ declared (s_locals sn) ++ declared (s_outputs sn)))
        (format_string "->" ofmt (n_outputs nd)) last.
Proof.
  intros fshow mode glob p l f file ifmt ofmt nd i ins out outs i' H D F Hi R.
  eapply lines_streams; eauto; rewrite untraced_nodes; auto. eapply pipeline_default; eauto.
Qed.

(** ** The option of a node *)
Theorem trace_option : forall p l, result (pipeline p) = Some l ->
  (forall t nd, In (t, nd) (tnodes_of l) -> exists a sn es, In (a, XNode sn) p /\ s_name sn = n_name nd /\
    Forall2 AttrSpec.means a es /\ t = latest (traces es)) /\
  (forall a sn, In (a, XNode sn) p -> exists t nd es, In (t, nd) (tnodes_of l) /\ s_name sn = n_name nd /\
    Forall2 AttrSpec.means a es /\ t = latest (traces es)).
Proof.
  intros p l H. destruct (program_attributed _ _ H) as (l' & P & F). split.
  - intros t nd I. apply tnodes_in in I. destruct I as (o & I & <-). apply (Permutation_in _ P) in I.
    destruct (forall2_in_r _ _ _ F _ I) as ((a & s) & J & es & M & _ & C). cbn [fst snd] in *. inversion C; subst.
    exists a, sn, es. split; auto. split; auto. split; auto. match goal with X : node_options _ _ |- _ => apply X end.
  - intros a sn I. destruct (forall2_in_l _ _ _ F _ I) as (d & J & es & M & _ & C). cbn [fst snd] in *. inversion C; subst.
    exists (o_trace o), nd, es. split; [apply tnodes_in; exists o; split; auto; apply (Permutation_in _ (Permutation_sym P)); auto|].
    split; auto. split; auto. match goal with X : node_options _ _ |- _ => apply X end.
Qed.
