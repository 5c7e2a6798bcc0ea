(** * A program inside a larger one. *)
From Coq Require Import String List ZArith Bool Arith Lia Permutation.
From Verif Require Import Model.Base Model.Scalar Model.Value Model.History Model.Register Model.Ast Model.Errors Model.Interp Model.Constexpr Model.Options Model.Surface Model.Translate
  Model.Graph Model.Causality Model.Typecheck Model.Clockcheck Model.Positivity Model.Pipeline Model.Names Spec.Static Spec.LinkSpec
  Proofs.OutBasics Proofs.AstInd Proofs.ExternBasics Proofs.CausalityProofs Proofs.PipelineProofs Proofs.TypePipeline Proofs.Stripped Proofs.DeclOrder Proofs.DeclRuns
  Proofs.Names Proofs.StaticNames Proofs.StaticProgram Proofs.Link Proofs.ConstOrder.
From Verif Require Proofs.InterpBasics.
Import ListNotations.

(** ** Constants that do not occur *)
Definition node_reads (nd : node) (x : ident) : Prop := In x (flat_map stmt_globals (n_stmts nd)).
Section Glob.
  Variable mode : ovf.
  Variables glob glob' : ident -> option scalar.
  Variable call : nat -> inst -> val -> res (val * inst).
  Variable nilout : nat -> res val.
  Local Notation ev := (fun g clk hists => eval mode g clk hists call nilout).

  Lemma evals_glob : forall clk hists regs st l,
    Forall (fun e => (forall x, In x (expr_globals e) -> glob x = glob' x) -> forall s, ev glob clk hists regs st e s = ev glob' clk hists regs st e s) l ->
    (forall x, In x (flat_map expr_globals l) -> glob x = glob' x) -> forall s,
    evals mode glob clk hists call nilout regs st l s = evals mode glob' clk hists call nilout regs st l s.
  Proof.
    intros clk hists regs st l H. induction H as [|e l E _ IH]; intros G s; auto. cbn [evals]. cbn [flat_map] in G.
    apply bind_ext; [apply E; intros; apply G, in_app_iff; auto|]. intros [v s1]. apply bind_ext; auto. apply IH. intros; apply G, in_app_iff; auto.
  Qed.
  Local Ltac sides := match goal with G : forall x, In x (_ ++ _ ++ _) -> _ |- _ => 
      pose proof (fun x J => G x (in_or_app _ _ x (or_introl J)));
      pose proof (fun x J => G x (in_or_app _ _ x (or_intror (in_or_app _ _ x (or_introl J)))));
      pose proof (fun x J => G x (in_or_app _ _ x (or_intror (in_or_app _ _ x (or_intror J)))))
    | G : forall x, In x (_ ++ _) -> _ |- _ => 
      pose proof (fun x J => G x (in_or_app _ _ x (or_introl J)));
      pose proof (fun x J => G x (in_or_app _ _ x (or_intror J)))
    | _ => idtac end.
  Lemma eval_glob : forall clk hists regs st e, (forall x, In x (expr_globals e) -> glob x = glob' x) -> forall s,
    ev glob clk hists regs st e s = ev glob' clk hists regs st e s.
  Proof.
    intros clk hists regs st e. induction e using expr_ind'; intros G s; cbn [expr_globals] in G; sides.
    - reflexivity.
    - reflexivity.
    - cbn [eval]. rewrite G; cbn; auto.
    - rewrite !InterpBasics.eval_tuple. apply bind_ext; auto. apply evals_glob; auto.
    - exact (IHe G s).
    - exact (IHe G s).
    - cbn [eval]. apply bind_ext; auto. intros [x s1]. apply bind_ext; auto.
    - cbn [eval]. apply bind_ext; auto.
    - cbn [eval]. apply bind_ext; auto. intros [x s1]. apply bind_ext; auto.
    - cbn [eval]. apply bind_ext; auto. intros [x s1]. apply bind_ext; auto.
    - cbn [eval]. apply bind_ext; auto. intros [x s1]. destruct (d <? clk); auto.
    - reflexivity.
    - cbn [eval]. apply bind_ext; auto. intros [x s1]. apply bind_ext; auto.
    - cbn [eval]. apply bind_ext; auto. intros [x s1]. apply bind_ext; auto. intros [y s2]. apply bind_ext; auto.
    - cbn [eval]. apply bind_ext; auto. intros [x s1]. apply bind_ext; auto. intros [y s2]. apply bind_ext; auto. intros [z s3]. apply bind_ext; auto.
    - cbn [eval]. destruct (d <=? clk); auto. apply bind_ext; auto.
  Qed.
  Lemma exec_glob : forall clk hists i, (forall x, In x (stmt_globals i) -> glob x = glob' x) -> forall s,
    exec mode glob clk hists call nilout i s = exec mode glob' clk hists call nilout i s.
  Proof.
    intros clk hists [t e|e|id v c|id e] G [st regs es]; cbn [stmt_globals] in G; sides; cbn [exec].
    - apply bind_ext; auto. apply eval_glob; auto.
    - apply bind_ext; auto. apply eval_glob; auto.
    - destruct c as [c|]; cbn [of_option bind]; auto. apply bind_ext; auto. intros r. apply bind_ext; [apply eval_glob; auto|]. intros [cv s1].
      apply bind_ext; auto. intros n. apply bind_ext; auto. intros r1. destruct v as [e|]; auto. apply bind_ext; auto. apply eval_glob; auto.
    - apply bind_ext; auto. intros r. apply bind_ext; auto. apply eval_glob; auto.
  Qed.
  Lemma execs_glob : forall clk hists l, (forall x, In x (flat_map stmt_globals l) -> glob x = glob' x) -> forall s,
    execs mode glob clk hists call nilout l s = execs mode glob' clk hists call nilout l s.
  Proof.
    intros clk hists. induction l as [|i l IH]; intros G s; auto. cbn [flat_map] in G. sides. cbn [execs]. apply bind_ext; auto. apply exec_glob; auto.
  Qed.
  Lemma node_step_glob : forall nd i v, (forall x, node_reads nd x -> glob x = glob' x) ->
    node_step mode glob call nilout nd i v = node_step mode glob' call nilout nd i v.
  Proof.
    intros nd [clk hists regs flips subs] v G. unfold node_step. destruct (first_is_nil v); auto. apply bind_ext; auto. intros st.
    rewrite execs_glob; auto.
  Qed.
End Glob.

(** ** Nodes inside a larger program *)
Lemma same_node : forall q : prog, NoDup (map n_name q) -> forall a b, In a q -> In b q -> n_name a = n_name b -> a = b.
Proof.
  induction q as [|n l IH]; intros N a b A B E; [destruct A|]. cbn in N. inversion N; subst.
  destruct A as [->|A], B as [->|B]; auto.
  - exfalso. apply H1. rewrite E. apply in_map. auto.
  - exfalso. apply H1. rewrite <- E. apply in_map. auto.
Qed.
Section Sub.
  Variables p q : prog.
  Hypothesis I : incl p q.
  Hypothesis D : NoDup (map n_name q).
  Hypothesis Rp : ranked p.
  Hypothesis Rq : ranked q.
  Definition seen (f : ident) : Prop := In f (map n_name p) \/ ~ In f (map n_name q).
  Hypothesis C : forall nd g, In nd p -> In g (n_blocks nd) -> seen g.

  Lemma sub_find : forall f nd r, find_node p f = Some (nd, r) -> exists r', find_node q f = Some (nd, r').
  Proof.
    intros f nd r H. destruct (find_split _ _ _ _ H) as (a & E & Nm & J).
    assert (K : In nd p) by (rewrite E; apply in_app_iff; cbn; auto). pose proof (I _ K) as K'.
    destruct (find_node q f) as [[nd' r']|] eqn:F.
    - destruct (find_split _ _ _ _ F) as (a' & E' & Nm' & J'). exists r'. f_equal. f_equal. apply (same_node q); auto; [|congruence].
      rewrite E'. apply in_app_iff. cbn. auto.
    - exfalso. apply find_none in F. apply F. rewrite <- Nm. apply in_map. auto.
  Qed.
  Lemma seen_none : forall f, seen f -> find_node p f = None -> ~ In f (map n_name p) /\ ~ In f (map n_name q).
  Proof. intros f [S|S] F; apply find_none in F; [tauto|]. split; auto. Qed.
  Lemma sub_nil : forall f, seen f -> nil_outputs p f = nil_outputs q f.
  Proof.
    intros f S. unfold nil_outputs. destruct (find_node p f) as [[nd r]|] eqn:F.
    - destruct (sub_find _ _ _ F) as (r' & F'). rewrite F'. auto.
    - destruct (seen_none _ S F) as [_ N]. apply find_none in N. rewrite N. auto.
  Qed.
  Lemma found_in : forall (l : prog) f nd r, find_node l f = Some (nd, r) -> In nd l.
  Proof. intros l f nd r F. destruct (find_split _ _ _ _ F) as (a & E & _). rewrite E. apply in_app_iff. cbn. auto. Qed.
  Variables glob glob' : ident -> option scalar.
  Hypothesis G : forall nd x, In nd p -> node_reads nd x -> glob x = glob' x.
  Lemma sub_step : forall mode f, seen f -> forall i v, step mode glob p f i v = step mode glob' q f i v.
  Proof.
    intros mode.
    assert (X : forall n f, (forall nd r, find_node p f = Some (nd, r) -> length r < n) -> seen f -> forall i v, step mode glob p f i v = step mode glob' q f i v).
    { induction n as [|n IH]; intros f L S i v.
      - assert (F : find_node p f = None) by (destruct (find_node p f) as [[nd r]|]; auto; specialize (L _ _ eq_refl); lia).
        destruct (seen_none _ S F) as [N N']. rewrite !missing_step; auto.
      - destruct (find_node p f) as [[nd r]|] eqn:F.
        + destruct (sub_find _ _ _ F) as (r' & F'). rewrite (head_step _ _ _ _ _ _ _ _ Rp F), (head_step _ _ _ _ _ _ _ _ Rq F').
          pose proof (found_in _ _ _ _ F) as Jn. rewrite (node_step_glob mode glob glob') by (intros x J; eapply G; eauto).
          apply node_step_ext.
          * intros id i' v'. destruct (nth_error (n_blocks nd) id) as [g|] eqn:E; auto. apply IH.
            -- intros nd' s Fg. pose proof (position _ Rp _ _ _ _ F (nth_error_In _ _ E) _ _ Fg). specialize (L _ _ eq_refl). lia.
            -- eapply C; eauto. eapply nth_error_In; eauto.
          * intros id. destruct (nth_error (n_blocks nd) id) as [g|] eqn:E; cbn [of_option bind]; auto. apply sub_nil. eapply C; eauto. eapply nth_error_In; eauto.
        + destruct (seen_none _ S F) as [N N']. rewrite !missing_step; auto. }
    intros f. apply (X (S (match find_node p f with Some (_, r) => length r | None => 0 end))). intros nd r F. rewrite F. lia.
  Qed.
  Lemma sub_init : forall f, seen f -> init_inst p f = init_inst q f.
  Proof.
    assert (X : forall n f, (forall nd r, find_node p f = Some (nd, r) -> length r < n) -> seen f -> init_inst p f = init_inst q f).
    { induction n as [|n IH]; intros f L S.
      - assert (F : find_node p f = None) by (destruct (find_node p f) as [[nd r]|]; auto; specialize (L _ _ eq_refl); lia).
        destruct (seen_none _ S F) as [N N']. rewrite !missing_init; auto.
      - destruct (find_node p f) as [[nd r]|] eqn:F.
        + destruct (sub_find _ _ _ F) as (r' & F'). rewrite (head_init _ _ _ _ Rp F), (head_init _ _ _ _ Rq F').
          rewrite (mapM_ext (init_inst p) (init_inst q)); auto. intros g E. apply IH.
          * intros nd' s Fg. pose proof (position _ Rp _ _ _ _ F E _ _ Fg). specialize (L _ _ eq_refl). lia.
          * eapply C; eauto. eapply found_in; eauto.
        + destruct (seen_none _ S F) as [N N']. rewrite !missing_init; auto. }
    intros f. apply (X (S (match find_node p f with Some (_, r) => length r | None => 0 end))). intros nd r F. rewrite F. lia.
  Qed.
  Lemma sub_run : forall mode f, seen f -> forall ins i, run mode glob p f i ins = run mode glob' q f i ins.
  Proof.
    intros mode f S. induction ins as [|v ins IH]; intros i; cbn [run]; auto. rewrite sub_step by auto. apply bind_ext; auto. intros [o i']. rewrite IH. auto.
  Qed.
  Lemma sub_main : forall mode f, seen f -> forall n fuel, main_fn mode glob p f n fuel = main_fn mode glob' q f n fuel.
  Proof.
    intros mode f S n fuel.
    assert (B : forall i, main_body mode glob p f i = main_body mode glob' q f i) by (intros; unfold main_body; rewrite sub_step; auto).
    assert (F : forall n i, main_for mode glob p f n i = main_for mode glob' q f n i).
    { induction n0 as [|k IH]; intros i; cbn; auto. rewrite B. destruct (main_body _ _ q f i); cbn; auto. }
    assert (H : forall n i, main_forever mode glob p f n i = main_forever mode glob' q f n i).
    { induction n0 as [|k IH]; intros i; cbn; auto. rewrite B. destruct (main_body _ _ q f i); cbn; auto. }
    unfold main_fn. rewrite sub_init by auto. destruct (init_inst q f); auto. rewrite F, H. auto.
  Qed.
End Sub.

(** ** Accepted programs *)
Lemma accepted_incl : forall p q l m, incl p q -> result (pipeline p) = Some l -> result (pipeline q) = Some m -> incl l m.
Proof.
  intros p q l m I Hp Hq.
  destruct (accepted_code _ _ Hp) as (mp & cp & Tp & Np & _ & Cp & Pp). destruct (accepted_code _ _ Hq) as (mq & cq & Tq & Nq & _ & Cq & Pq).
  assert (W : well_formed p) by (apply accepted_well_formed; eauto).
  intros d4 J. apply (Permutation_in _ (Permutation_sym Pp)) in J. destruct (forall2_in_r _ _ _ Cp _ J) as (d & Jd & Cd).
  destruct (forall2_in_r _ _ _ Tp _ Jd) as (a & Ja & Ta). destruct (forall2_in_l _ _ _ Tq _ (I _ Ja)) as (d' & Jd' & Ta').
  rewrite <- (tree_function _ _ _ Ta Ta') in Jd'. destruct (forall2_in_l _ _ _ Cq _ Jd') as (e4 & Je & Ce).
  apply (Permutation_in _ Pq). replace d4 with e4; auto. eapply code_function; [exact Ce|].
  apply (code_context a d d4 mp mq Ta Np Nq); auto; intros x M; destruct (mentions_declared _ _ _ W Ja M) as (b & Jb & Q).
  - destruct (introduces_constant _ _ Q) as (t & Jt). exists t. rewrite (tree_consts _ _ Tp), (tree_consts _ _ Tq). split; apply in_flat_map; eauto.
  - destruct (introduces_interface _ _ Q) as (t & Jt). exists t. rewrite (in_funs _ _ Tp), (in_funs _ _ Tq). split; apply in_flat_map; eauto.
Qed.

Lemma inside_node : forall p l d g, result (pipeline p) = Some l -> In d l -> In (Types, node_id 0 g) (refers 0 d) -> In (RFun g) (flat_map decl_provides l).
Proof.
  intros p l d g R J K. destruct (program_refers _ _ 0 R _ J) as [_ P]. destruct (P _ K) as (d' & J' & E). apply in_flat_map. exists d'. split; auto.
  destruct d'; cbn [internal] in E; try discriminate; apply (f_equal snd) in E; cbn [snd] in E; apply node_id_inj in E; destruct E as [<- _]; cbn; auto.
Qed.
Lemma inside_const : forall p l d x, result (pipeline p) = Some l -> In d l -> In (Values, global_id 0 x) (refers 0 d) -> In (RGlobal x) (flat_map decl_provides l).
Proof.
  intros p l d g R J K. destruct (program_refers _ _ 0 R _ J) as [_ P]. destruct (P _ K) as (d' & J' & E). apply in_flat_map. exists d'. split; auto.
  destruct d'; cbn [internal] in E; try discriminate; apply (f_equal snd) in E; cbn [snd] in E; apply global_id_inj in E; destruct E as [<- _]; cbn; auto.
Qed.
Lemma in_nodes : forall l nd, In nd (nodes_of l) <-> exists o, In (DNode o nd) l.
Proof.
  intros l nd. unfold nodes_of. rewrite <- in_rev, in_flat_map. split.
  - intros (d & J & K). destruct d as [|o nd'| |]; cbn in K; try tauto. destruct K as [->|[]]. eauto.
  - intros (o & J). exists (DNode o nd). cbn. auto.
Qed.
Lemma once : forall l d d' u, NoDup (flat_map decl_provides l) -> In d l -> In d' l -> In u (decl_provides d) -> In u (decl_provides d') -> d = d'.
Proof.
  induction l as [|e l IH]; intros d d' u N J J' U U'; [destruct J|]. cbn in N. apply nodup_app_inv in N. destruct N as (_ & N & A).
  destruct J as [->|J], J' as [->|J']; eauto.
  - exfalso. apply (A _ U). apply in_flat_map. eauto.
  - exfalso. apply (A _ U'). apply in_flat_map. eauto.
Qed.

Section Both.
  Variables p q : sprog.
  Variables l m : list decl.
  Hypothesis I : incl p q.
  Hypothesis Hp : result (pipeline p) = Some l.
  Hypothesis Hq : result (pipeline q) = Some m.
  Let L : incl l m := accepted_incl p q l m I Hp Hq.

  Lemma provided_seen : forall g, In (RFun g) (flat_map decl_provides l) -> seen (nodes_of l) (nodes_of m) g.
  Proof.
    intros g J. apply in_flat_map in J. destruct J as (d & J & K). destruct d as [|o nd| |o x i o']; cbn in K; destruct K as [E|[]]; inversion E; subst.
    - left. apply in_map, in_nodes. eauto.
    - right. intros Q. apply in_map_iff in Q. destruct Q as (nd & <- & Q). apply in_nodes in Q. destruct Q as (o2 & Q).
      assert (X : DExtNode o (n_name nd) i o' = DNode o2 nd); [|discriminate].
      apply (once m _ _ (RFun (n_name nd)) (pipeline_provides _ _ Hq)); auto; cbn; auto.
  Qed.
  Lemma nodes_incl : incl (nodes_of l) (nodes_of m).
  Proof. intros nd J. apply in_nodes in J. destruct J as (o & J). apply in_nodes. eauto. Qed.
  Lemma calls_seen : forall nd g, In nd (nodes_of l) -> In g (n_blocks nd) -> seen (nodes_of l) (nodes_of m) g.
  Proof.
    intros nd g J K. apply in_nodes in J. destruct J as (o & J). apply provided_seen. eapply inside_node; [exact Hp|exact J|].
    cbn [refers]. right. apply in_app_iff. left. apply in_map_iff. eauto.
  Qed.
  Lemma reads_provided : forall nd x, In nd (nodes_of l) -> node_reads nd x -> In (RGlobal x) (flat_map decl_provides l).
  Proof.
    intros nd x J K. apply in_nodes in J. destruct J as (o & J). eapply inside_const; [exact Hp|exact J|].
    cbn [refers]. right. apply in_app_iff. right. apply in_map_iff. eauto.
  Qed.

  (** *** Constants *)
  Lemma const_eval_glob : forall g g' e, (forall x, In x (expr_globals e) -> g x = g' x) -> const_eval g e = const_eval g' e.
  Proof.
    intros g g'. induction e using expr_ind'; intros X; cbn [const_eval]; cbn [expr_globals] in X; auto;
      try (rewrite X by (cbn; auto); reflexivity);
      repeat match goal with
             | H : _ -> const_eval g ?a = const_eval g' ?a |- _ => rewrite H by (intros; apply X; rewrite ?in_app_iff; auto); clear H
             end; auto.
  Qed.
  Definition known (y : ident) : bool := if in_dec string_dec y (map fst (flat_map cst l)) then true else false.
  Lemma lookup_known : forall y (g : list (ident * scalar)), lookup y (filter (fun e => known (fst e)) g) = if known y then lookup y g else None.
  Proof.
    intros y g. induction g as [|[x s] g IH]; cbn; [destruct (known y); auto|]. destruct (known x) eqn:K; cbn; rewrite IH; destruct (String.eqb_spec y x); subst; auto.
    - rewrite K. auto.
    - rewrite K. auto.
  Qed.
  Lemma consts_incl : forall c, In c (flat_map cst l) -> In c (flat_map cst m).
  Proof. intros c J. apply in_flat_map in J. destruct J as (d & J & K). apply in_flat_map. eauto. Qed.
  Lemma sub_constants : forall ext g', constants ext m = Ok g' ->
    exists g, constants ext l = Ok g /\ forall x, In (RGlobal x) (flat_map decl_provides l) -> g x = g' x.
  Proof.
    intros ext g' H. unfold constants in *. rewrite cenv_const in *. destruct (cenv ext (flat_map cst m) []) as [e|] eqn:E; cbn in H; inversion H; subst.
    destruct (accepted_consts _ _ Hp) as [S N]. destruct (accepted_consts _ _ Hq) as [S' N'].
    destruct (holds_cenv ext (filter (fun e => known (fst e)) e) (flat_map cst l) [] []) as (e' & E' & A); auto.
    - intros c J. destruct (cenv_holds _ _ _ _ N' S' E _ (consts_incl _ J)) as (s & V & W). exists s. split.
      + rewrite <- V. destruct c as [x [b|]]; unfold cval; cbn [fst snd]; auto. apply const_eval_glob. intros y Y. rewrite lookup_known.
        unfold known. destruct (in_dec _ _ _) as [_|Z]; auto. exfalso. apply Z. apply csts_provided.
        apply in_flat_map in J. destruct J as (d & J & K). destruct d; cbn in K; try tauto; destruct K as [K|[]]; inversion K; subst.
        eapply inside_const; [exact Hp|exact J|]. cbn [refers]. apply in_app_iff. right. apply in_map_iff. eauto.
      + rewrite lookup_known. unfold known. destruct (in_dec _ _ _) as [_|Z]; auto. exfalso. apply Z. apply in_map. auto.
    - intros y [].
    - cbn [app]. intros y J. rewrite lookup_known. unfold known. destruct (in_dec _ _ _); tauto.
    - rewrite E'. exists (fun x => lookup x e'). split; auto. intros x J. rewrite A, lookup_known. unfold known.
      destruct (in_dec _ _ _) as [_|Z]; auto. exfalso. apply Z. apply csts_provided. auto.
  Qed.
  Lemma source_provides : forall n, (exists a, In a p /\ introduces (snd a) = n) <-> In (reference_of n) (flat_map decl_provides l).
  Proof.
    intros n. destruct (accepted_code _ _ Hp) as (mp & cp & Tp & Np & _ & Cp & Pp).
    assert (E : flat_map decl_provides cp = flat_map decl_provides mp).
    { clear - Cp. symmetry. eapply forall2_flat_eq; [exact Cp|]. intros d d4 (d2 & d3 & T & K & P).
      assert (E2 : decl_provides d2 = decl_provides d).
      { destruct d; cbn [tc_one] in T; try (inversion T; auto; fail); apply obind_some in T; destruct T as (r & T & Q); try (inversion Q; auto; fail).
        destruct r as [nd' gens]. inversion Q; subst. unfold tc_node in T. inv_out. reflexivity. }
      assert (E3 : decl_provides d3 = decl_provides d2).
      { destruct d2; cbn [kc_decl] in K; try (inversion K; auto; fail); apply obind_some in K; destruct K as (nd' & K & Q); inversion Q; subst; auto.
        unfold kc_node in K. inv_out. reflexivity. }
      rewrite <- E2, <- E3. destruct d3; cbn [pos_decl] in P; try (inversion P; auto; fail). apply obind_some in P. destruct P as (nd' & P & Q). inversion Q; subst.
      unfold pos_node in P. apply obind_some in P. destruct P as (mm & _ & P). inversion P. reflexivity. }
    assert (X : In (reference_of n) (flat_map decl_provides l) <-> In (reference_of n) (flat_map decl_provides mp)).
    { rewrite <- E. split; apply Permutation_in, Permutation_flat_map; auto using Permutation_sym. }
    rewrite X, (introduced_provides _ _ Tp), map_map, in_map_iff. split; intros (a & A & B).
    - exists a. rewrite B. auto.
    - exists a. split; auto. apply reference_inj. auto.
  Qed.

  Theorem extended_runs : forall ext g', constants ext m = Ok g' ->
    exists g, constants ext l = Ok g /\
      (forall a x, In a p -> introduces (snd a) = Constant x -> g x = g' x) /\
      (forall a f, In a p -> introduces (snd a) = Node f ->
         init_inst (nodes_of l) f = init_inst (nodes_of m) f /\
         (forall mode i ins, run mode g (nodes_of l) f i ins = run mode g' (nodes_of m) f i ins) /\
         (forall mode k fuel, main_fn mode g (nodes_of l) f k fuel = main_fn mode g' (nodes_of m) f k fuel)).
  Proof.
    intros ext g' H. destruct (sub_constants ext g' H) as (g & Hg & A). exists g. split; auto. split.
    - intros a x J E. apply A. apply (source_provides (Constant x)). eauto.
    - intros a f J E. assert (S : seen (nodes_of l) (nodes_of m) f) by (apply provided_seen, (source_provides (Node f)); eauto).
      destruct (accepted_ranked _ _ Hp) as [R _], (accepted_ranked _ _ Hq) as [R' N'].
      assert (G : forall nd x, In nd (nodes_of l) -> node_reads nd x -> g x = g' x) by (intros; apply A; eapply reads_provided; eauto).
      split; [|split]; intros.
      + apply sub_init; auto using nodes_incl. apply calls_seen.
      + apply sub_run; auto using nodes_incl. apply calls_seen.
      + apply sub_main; auto using nodes_incl. apply calls_seen.
  Qed.
End Both.

Theorem unused_removed : forall q p rest m, Permutation q (p ++ rest) ->
  (forall a b, In a p -> In b rest -> ~ mentions (snd a) (introduces (snd b))) ->
  result (pipeline q) = Some m -> exists l, result (pipeline p) = Some l.
Proof.
  intros q p rest m P U H.
  destruct (declarations_permuted q (rest ++ p) m) as (m' & H' & _); [rewrite P; apply Permutation_app_comm|auto|].
  refine (separated rest [] p _ _ _ _ m' H' _).
  - intros e [].
  - intros a b A B E. assert (W : well_formed (rest ++ p)) by (apply accepted_well_formed; eauto). destruct W as (_ & N & _).
    rewrite map_app in N. apply nodup_app_inv in N. destruct N as (_ & _ & N). apply (N (introduces (snd a))); [|rewrite E]; apply in_map_iff; eauto.
  - constructor.
  - intros a b A B M. exfalso. eapply U; eauto.
  - intros e [].
Qed.
