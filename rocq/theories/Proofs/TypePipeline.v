(** Accepted programs are well typed. *)
From Coq Require Import String List ZArith Bool Arith Lia Permutation.
From Verif Require Import Model.Base Model.Scalar Model.Value Model.Ast Model.Errors Model.Interp Model.Options Model.Surface Model.Translate
  Model.Graph Model.Causality Model.Typecheck Model.Clockcheck Model.Positivity Model.Pipeline Model.Extern
  Spec.StepSpec Spec.CausalitySpec Spec.OrderSpec Spec.ProgramSem Spec.TypeSpec Spec.DepthSpec Spec.SafetySpec
  Proofs.AstInd Proofs.OutBasics Proofs.CoreProofs Proofs.ExternBasics Proofs.CausalityProofs Proofs.TranslateStruct Proofs.NodeWf Proofs.PipelineProofs
  Proofs.Unify Proofs.TypeEval Proofs.TypeExec Proofs.TypeProg Proofs.Depths Proofs.TypeNode.
Import ListNotations.

(** ** The parts of a node that the passes keep *)
Lemma passes_frame : forall gl fn o nd1 nd2 gens nd3 nd,
  result (tc_node gl fn o nd1) = Some (nd2, gens) -> result (kc_node nd2) = Some nd3 -> result (pos_node nd3) = Some nd ->
  exists m, n_name nd = n_name nd1 /\ n_inputs nd = map (set_depth m) (n_inputs nd1) /\ n_outputs nd = map (set_depth m) (n_outputs nd1).
Proof.
  intros gl fn o nd1 nd2 gens nd3 nd H2 H3 H4. unfold tc_node in H2.
  apply obind_some in H2. destruct H2 as (u1 & X1 & Y2).
  apply obind_some in Y2. destruct Y2 as (u2 & X2 & Y2).
  apply obind_some in Y2. destruct Y2 as ((ok, vars) & X3 & Y2).
  apply obind_some in Y2. destruct Y2 as (u3 & X4 & Y2). destruct ok; [|discriminate].
  apply obind_some in Y2. destruct Y2 as (bl & Xb & Y2).
  apply obind_some in Y2. destruct Y2 as (sr & Xs & Y2). apply obind_some in Y2. destruct Y2 as (sr' & Xn & Y2).
  inversion Y2; subst nd2 gens; clear Y2.
  unfold kc_node in H3. cbn [n_inputs n_outputs n_locals n_stmts n_name n_blocks n_regs n_flips] in H3.
  apply obind_some in H3. destruct H3 as (u4 & X5 & Y3). apply obind_some in Y3. destruct Y3 as (ksr & Xk & Y3).
  apply obind_some in Y3. destruct Y3 as (ks & Xn' & Y3).
  apply obind_some in Y3. destruct Y3 as (final & Xf & Y3). inversion Y3; subst nd3; clear Y3.
  destruct (pos_node_all _ _ H4) as (m & Hm & End). exists m. rewrite End. cbn. auto.
Qed.

Lemma set_depth_base : forall m l, map v_base (map (set_depth m) l) = map v_base l.
Proof. intros. rewrite map_map. apply map_ext. auto. Qed.

(** ** The whole list of declarations *)
Definition node_safe (o : node_opts) (nd : node) : Prop :=
  o_universal o = false \/
  (well_ordered (n_stmts nd) /\ Forall (fun t => match t with Some t => no_single t | None => True end) (n_regs nd)).

Definition funs_found (funs : list (ident * fsig)) (P : list tnode) : Prop :=
  forall f g, lookup f funs = Some g -> exists ins outs, sig_of P f = Some (ins, outs) /\
    g_ins g = map v_base ins /\ g_outs g = map v_base outs.

Definition const_of (d : decl) : list (ident * base) :=
  match d with DConst _ x t _ | DExtConst _ x t => [(x, t)] | _ => [] end.

Lemma items_of_cons : forall d l, items_of (d :: l) = items_of l ++ items_of [d].
Proof. intros. unfold items_of. cbn [flat_map]. rewrite rev_app_distr, app_nil_r. auto. Qed.

Lemma build : forall gl (W : signature -> node -> list (ident -> base) -> Prop) (S : node_opts -> node -> Prop) (X : ident -> list tyvar -> list tyvar -> Prop) l1 globals funs l2 l3 l P,
  result (tc_decls globals funs l1) = Some (true, l2) ->
  Forall2 (fun d d' => result (kc_decl d) = Some d') l2 l3 ->
  Forall2 (fun d d' => result (pos_decl d) = Some d') l3 l ->
  (forall o nd1, In (DNode o nd1) l1 -> exists sn nd0, result (tr_node o sn) = Some nd0 /\ node_causality nd0 = inl nd1) ->
  (forall o x i o', In (DExtNode o x i o') l1 -> X x i o') ->
  (forall F o nd sg, S o nd -> loose_node gl F nd sg /\ (node_safe o nd -> typed_node gl F nd sg) -> W F nd sg) ->
  (forall o nd, In (DNode o nd) l -> S o nd) ->
  (forall x t, In (x, t) (flat_map const_of l1) -> gl x = Some t) ->
  (forall x b, lookup x globals = Some b -> gl x = Some b) ->
  prog_of W X P -> funs_found funs P ->
  exists Q, plain Q = items_of l ++ plain P /\ prog_of W X Q.
Proof.
  intros gl W S X. induction l1 as [|d l1 IH]; intros globals funs l2 l3 l P H F3 F4 Or Ne Ws Sf Cs Gl T Fu; cbn [tc_decls] in H.
  - inv_out. inversion F3; subst. inversion F4; subst. exists P. auto.
  - apply obind_some in H. destruct H as (r & E & H). apply attempt_some in E.
    apply obind_some in H. destruct H as ((gl', fn') & E1 & H).
    apply obind_some in H. destruct H as ((ok, ds) & E2 & H).
    destruct r as [d'|]; cbn in H; inversion H; subst; clear H.
    inversion F3 as [|? d3 ? l3' K3 F3']; subst. inversion F4 as [|? d4 ? l4' K4 F4']; subst.
    rewrite items_of_cons, <- app_assoc.
    assert (Oth : items_of [d4] = [] -> fn' = funs -> (forall x b, lookup x gl' = Some b -> gl x = Some b) ->
      exists Q, plain Q = items_of l4' ++ items_of [d4] ++ plain P /\ prog_of W X Q).
    { intros -> -> G'. cbn [app]. eapply IH; eauto; cbn; auto.
      - intros; apply Or; cbn; auto.
      - intros; eapply Ne; right; eauto.
      - intros; apply Sf; cbn; auto.
      - intros. apply Cs. cbn. apply in_app_iff. auto. }
    destruct d as [o x t e|o nd1|o x t|o x i o'].
    + assert (d' = DConst o x t e) by (clear -E; inv_out; auto). subst d'. cbn [kc_decl] in K3. inversion K3; subst d3.
      cbn [pos_decl] in K4. inversion K4; subst d4.
      destruct (lookup x globals); [discriminate|]. inversion E1; subst gl' fn'.
      apply Oth; auto. intros y b. cbn. destruct (String.eqb_spec y x); [|apply Gl]. intros J. inversion J; subst. apply Cs. cbn. auto.
    + apply obind_some in E. destruct E as ((nd2, gens) & Tc & E). inversion E; subst d'.
      cbn [kc_decl] in K3. apply obind_some in K3. destruct K3 as (nd3 & Kc & K3). inversion K3; subst d3.
      cbn [pos_decl] in K4. apply obind_some in K4. destruct K4 as (nd & Po & K4). inversion K4; subst d4.
      destruct (lookup (n_name nd1) funs); [discriminate|]. inversion E1; subst gl' fn'.
      destruct (Or o nd1) as (sn & nd0 & Tr & Ca); [cbn; auto|].
      assert (exists sg, W (sig_of P) nd sg) as (sg & Tn).
      { destruct (node_typed gl (sig_of P) globals funs Gl o sn nd0 nd1 nd2 nd3 nd gens) as (sg & Tn); eauto. exists sg.
        apply (Ws _ o); auto. apply Sf. cbn. auto. }
      destruct (passes_frame _ _ _ _ _ _ _ _ Tc Kc Po) as (m & Nn & Ni & No).
      destruct (IH globals ((n_name nd1, node_sig o nd1) :: funs) ds l3' l4' ((INode nd, sg) :: P)) as (Q & EQ & TQ); auto.
      * intros; apply Or; cbn; auto.
      * intros; eapply Ne; right; eauto.
      * intros; apply Sf; cbn; auto.
      * cbn. auto.
      * intros f g. unfold sig_of. cbn [lookup plain map fst find_item item_name]. rewrite Nn. destruct (String.eqb f (n_name nd1)).
        -- intros J. inversion J; subst g. exists (n_inputs nd), (n_outputs nd). split; auto. cbn. rewrite Ni, No, !set_depth_base. auto.
        -- apply Fu.
      * exists Q. split; auto. 
    + assert (d' = DExtConst o x t) by (clear -E; inv_out; auto). subst d'. cbn [kc_decl] in K3. inversion K3; subst d3.
      cbn [pos_decl] in K4. inversion K4; subst d4.
      destruct (lookup x globals); [discriminate|]. inversion E1; subst gl' fn'.
      apply Oth; auto. intros y b. cbn. destruct (String.eqb_spec y x); [|apply Gl]. intros J. inversion J; subst. apply Cs. cbn. auto.
    + apply obind_some in E. destruct E as (u & Ck & E). inversion E; subst d'.
      cbn [kc_decl] in K3. apply obind_some in K3. destruct K3 as (? & _ & K3). inversion K3; subst d3. cbn [pos_decl] in K4. inversion K4; subst d4.
      destruct (lookup x funs); [discriminate|]. inversion E1; subst gl' fn'.
      assert (N : NoDup (map v_name (i ++ o'))).
      { unfold tc_ext_node in Ck. apply obind_some in Ck. destruct Ck as (? & _ & Ck). apply obind_some in Ck. destruct Ck as (? & _ & Ck).
        apply obind_some in Ck. destruct Ck as ((ok', vs) & Ck & Q). destruct ok'; [|discriminate]. apply tc_vars_ok in Ck. tauto. }
      rewrite map_app in N.
      destruct (IH globals ((x, ext_sig o i o') :: funs) ds l3' l4' ((IExt x i o', []) :: P)) as (Q & EQ & TQ); auto.
      * intros; apply Or; cbn; auto.
      * intros; eapply Ne; right; eauto.
      * intros; apply Sf; cbn; auto.
      * cbn [prog_of]. split; [|split; [|split; [|auto]]].
        -- clear - N. induction (map v_name i) as [|a l IHl]; [constructor|]. inversion N; subst. constructor; auto. intros J. apply H1. apply in_or_app. auto.
        -- clear - N. induction (map v_name i) as [|a l IHl]; auto. inversion N; subst. auto.
        -- eapply Ne. left. reflexivity.
      * intros f g. unfold sig_of. cbn [lookup plain map fst find_item item_name]. destruct (String.eqb f x).
        -- intros J. inversion J; subst g. exists i, o'. auto.
        -- apply Fu.
      * exists Q. split; auto.
Qed.

(** ** Constants *)
Lemma provided_consts : forall l x t t', NoDup (flat_map decl_provides l) ->
  In (x, t) (flat_map const_of l) -> In (x, t') (flat_map const_of l) -> t = t'.
Proof.
  assert (In1 : forall l x t, In (x, t) (flat_map const_of l) -> In (RGlobal x) (flat_map decl_provides l)).
  { intros l x t I. apply in_flat_map in I. destruct I as (d & I & J). apply in_flat_map. exists d. split; auto.
    destruct d; cbn in *; try tauto; destruct J as [J|[]]; inversion J; auto. }
  induction l as [|d l IH]; intros x t t' N I J; cbn [flat_map] in *; [destruct I|].
  apply in_app_iff in I. apply in_app_iff in J. 
  assert (N' : NoDup (flat_map decl_provides l)) by (destruct d; cbn in N; inversion N; auto).
  assert (D : forall t, In (x, t) (const_of d) -> ~ In (RGlobal x) (flat_map decl_provides l)).
  { intros s K. destruct d; cbn in *; try tauto; destruct K as [K|[]]; inversion K; subst; inversion N; auto. }
  destruct I as [I|I], J as [J|J]; eauto.
  - destruct d; cbn in *; try tauto; destruct I as [I|[]], J as [J|[]]; congruence.
  - exfalso. apply (D _ I). eauto.
  - exfalso. apply (D _ J). eauto.
Qed.

Lemma lookup_unique : forall {A} (l : list (ident * A)) x t, In (x, t) l -> (forall t', In (x, t') l -> t' = t) -> lookup x l = Some t.
Proof.
  induction l as [|[y a] l IH]; intros x t I U; [destruct I|]. cbn. destruct (String.eqb_spec x y).
  - subst. f_equal. apply U. cbn. auto.
  - apply IH.
    + destruct I as [I|I]; [inversion I; congruence|auto].
    + intros t' J. apply U. cbn. auto.
Qed.
Lemma lookup_found : forall {A} (l : list (ident * A)) x t, lookup x l = Some t -> In (x, t) l.
Proof.
  induction l as [|[y a] l IH]; intros x t L; cbn in L; [discriminate|]. destruct (String.eqb_spec x y); cbn; auto. left. congruence.
Qed.

Lemma pipeline_typecheck : forall p l, result (pipeline p) = Some l -> exists l0 l1 l1' l2 l3,
  Forall2 (fun a d => result (tr_attrdecl a) = Some d) p l0 /\
  Forall2 (fun d d' => decl_causality d = inl d') l0 l1 /\
  Permutation l1' l1 /\ prog_causality l0 = inl l1' /\
  result (tc_decls [] [] l1') = Some (true, l2) /\
  Forall2 (fun d d' => result (kc_decl d) = Some d') l2 l3 /\
  Forall2 (fun d d' => result (pos_decl d) = Some d') l3 l.
Proof.
  intros p l H. unfold pipeline, tr_prog, analyse, clockcheck, positivity in H. inv_out.
  apply causality_some in E0. destruct E0 as (l1 & A & B & C).
  unfold typecheck in E1. apply obind_some in E1. destruct E1 as ((ok, x) & E1 & H1). destruct ok; [|discriminate].
  assert (x = r1) by (clear -H1; inv_out; auto). subst.
  exists r, l1, r0, r1, r2. repeat split; auto using omap_some.
Qed.

Definition declared_extern (p : sprog) (x : ident) (ins outs : list tyvar) : Prop :=
  exists a i o, In (a, XExtNode x i o) p /\ ins = tr_decls i /\ outs = tr_decls o.

Lemma accepted_prog_of : forall (W : (ident -> option base) -> signature -> node -> list (ident -> base) -> Prop) (S : node_opts -> node -> Prop),
  (forall gl F o nd sg, S o nd -> loose_node gl F nd sg /\ (node_safe o nd -> typed_node gl F nd sg) -> W gl F nd sg) ->
  forall p l, result (pipeline p) = Some l -> (forall o nd, In (DNode o nd) l -> S o nd) ->
  exists gl Q, plain Q = items_of l /\ prog_of (W gl) (declared_extern p) Q /\ (forall x t, gl x = Some t -> constant p x t).
Proof.
  intros W S Ws p l H Sf. destruct (pipeline_typecheck _ _ H) as (l0 & l1 & l1' & l2 & l3 & F0 & F1 & Pm & Cz & F2 & F3 & F4).
  assert (Or : forall d1, In d1 l1' -> exists d0 a x, In (a, x) p /\ result (tr_attrdecl (a, x)) = Some d0 /\ decl_causality d0 = inl d1).
  { intros d1 I. apply (Permutation_in _ Pm) in I. destruct (forall2_in_r _ _ _ F1 _ I) as (d0 & I0 & X0).
    destruct (forall2_in_r _ _ _ F0 _ I0) as ((a, x) & Ia & Ea). eauto 8. }
  assert (Tr : forall a x d0, result (tr_attrdecl (a, x)) = Some d0 ->
    match x, d0 with
    | XConst x t _, DConst _ x' t' _ => x = x' /\ t = t'
    | XNode sn, DNode o nd0 => result (tr_node o sn) = Some nd0
    | XExtConst x t, DExtConst _ x' t' => x = x' /\ t = t'
    | XExtNode x i o, DExtNode _ x' i' o' => x = x' /\ i' = tr_decls i /\ o' = tr_decls o
    | _, _ => False
    end).
  { intros a x d0 Ea. unfold tr_attrdecl in Ea. cbn [fst snd] in Ea.
    apply obind_some in Ea. destruct Ea as (d & W1 & Ea).
    destruct x as [? ? e|sn| |]; cbn [tr_decl] in Ea; inv_out; auto.
    destruct (t_stmts t0), (t_blocks t0); inv_out. auto. }
  exists (fun x => lookup x (flat_map const_of l1')).
  pose proof (prog_unique _ _ Cz) as Nd.
  destruct (build (fun x => lookup x (flat_map const_of l1')) (W (fun x => lookup x (flat_map const_of l1'))) S (declared_extern p) l1' [] [] l2 l3 l []) as (Q & EQ & TQ); auto.
  - intros o nd1 I. destruct (Or _ I) as (d0 & a & x & Ia & Ea & Ca). apply Tr in Ea.
    destruct d0 as [| o' nd0 | |]; cbn [decl_causality] in Ca; inversion Ca.
    destruct (node_causality nd0) eqn:E; [|discriminate]. inversion Ca; subst.
    destruct x; try tauto. eauto.
  - intros o x i o' I. destruct (Or _ I) as (d0 & a & y & Ia & Ea & Ca). apply Tr in Ea.
    destruct d0; cbn [decl_causality] in Ca; inversion Ca; subst; try discriminate.
    + destruct (node_causality nd); discriminate.
    + destruct y; try tauto. destruct Ea as (-> & -> & ->). unfold declared_extern. eauto 6.
  - intros F o nd sg So T. eapply Ws; eauto.
  - intros x t I. apply lookup_unique; auto. intros t' J. eapply provided_consts; eauto.
  - cbn. discriminate.
  - cbn. auto.
  - intros f g. cbn. discriminate.
  - exists Q. rewrite EQ. unfold plain. cbn. rewrite app_nil_r. split; auto. split; auto.
    intros x t L. apply lookup_found in L. apply in_flat_map in L. destruct L as (d & I & J).
    destruct (Or _ I) as (d0 & a & x0 & Ia & Ea & Ca). apply Tr in Ea.
    destruct d; cbn in J; try tauto; destruct J as [J|[]]; inversion J; subst;
      (destruct d0; cbn [decl_causality] in Ca; inversion Ca; subst; try (destruct (node_causality nd); discriminate));
      destruct x0; try tauto; destruct Ea; subst; exists a; eauto.
Qed.

Theorem accepted_typed_prog : forall p l, result (pipeline p) = Some l ->
  (forall o nd, In (DNode o nd) l -> node_safe o nd) ->
  exists gl Q, plain Q = items_of l /\ typed_prog gl (declared_extern p) Q /\ (forall x t, gl x = Some t -> constant p x t).
Proof. apply (accepted_prog_of typed_node node_safe). intros gl F o nd sg Sf [_ T]. auto. Qed.
Theorem accepted_loose_prog : forall p l, result (pipeline p) = Some l ->
  exists gl Q, plain Q = items_of l /\ loose_prog gl (declared_extern p) Q /\ (forall x t, gl x = Some t -> constant p x t).
Proof. intros p l H. apply (accepted_prog_of loose_node (fun _ _ => True)); auto. intros gl F o nd sg _ [L _]. auto. Qed.

Lemma default_safe : forall p l, result (pipeline p) = Some l -> default_mode p -> forall o nd, In (DNode o nd) l -> node_safe o nd.
Proof.
  intros p l H D o nd I. destruct (pipeline_origin _ _ H _ _ I) as (a & sn & d & Ia & W & Fo & C). left.
  rewrite (node_opts_universal _ _ _ W Fo). destruct (existsb is_universal a) eqn:E; auto. exfalso.
  apply existsb_exists in E. destruct E as (x & Ix & Ex). apply String.eqb_eq in Ex. apply (D _ _ Ia).
  rewrite <- Ex. apply in_map. auto.
Qed.

Lemma declared_bases : forall l, map v_base (tr_decls l) = flat_map (fun g => map (fun _ => fst (snd g)) (fst g)) l.
Proof.
  induction l as [|[xs [b c]] l IH]; auto. unfold tr_decls in *. cbn [flat_map]. rewrite map_app, IH. f_equal.
  rewrite map_map. cbn. auto.
Qed.

(** The nodes that run are those of the source. *)
Lemma found_source : forall p l, result (pipeline p) = Some l -> forall sn, In sn (source_nodes p) ->
  exists nd p', find_node (nodes_of l) (s_name sn) = Some (nd, p') /\
    in_type nd = declared_type (s_inputs sn) /\ out_type nd = declared_type (s_outputs sn).
Proof.
  intros p l H sn I. unfold source_nodes in I. apply in_flat_map in I. destruct I as ((a, x) & Ia & J).
  destruct x as [|sn'| |]; cbn in J; try tauto. destruct J as [<-|[]].
  assert (Fr : forall o sn nd, compiled_node o sn nd -> n_name nd = s_name sn /\
    in_type nd = declared_type (s_inputs sn) /\ out_type nd = declared_type (s_outputs sn)).
  { clear. intros o sn nd (nd0 & nd1 & nd2 & nd3 & gl & fn & gens & H0 & H1 & H2 & H3 & H4).
    pose proof (tr_node_translated _ _ _ H0) as T. destruct (passes_frame _ _ _ _ _ _ _ _ H2 H3 H4) as (m & Nn & Ni & No).
    destruct (node_stmts_perm _ _ H1) as [_ E1]. rewrite E1 in *. cbn in *.
    rewrite Nn, (td_name _ _ _ T). split; auto. unfold in_type, out_type, declared_type.
    rewrite Ni, No, !set_depth_base, (td_inputs _ _ _ T), (td_outputs _ _ _ T), !declared_bases, !flat_tuple. auto. }
  destruct (pipeline_covers _ _ H _ _ Ia) as (d & o & nd & In1 & _ & _ & Co). 
  destruct (Fr _ _ _ Co) as (Nm & Ti & To).
  assert (Fd : exists nd' p', find_node (nodes_of l) (s_name sn') = Some (nd', p') /\ In nd' (nodes_of l) /\ n_name nd' = s_name sn').
  { assert (In2 : In nd (nodes_of l)) by (apply nodes_of_in; eauto). clear -In2 Nm. induction (nodes_of l) as [|x q IH]; [destruct In2|].
    cbn. destruct (String.eqb_spec (s_name sn') (n_name x)).
    - exists x, q. auto.
    - destruct In2 as [->|In2]; [congruence|]. destruct (IH In2) as (nd' & p' & A & B & C). eauto 8. }
  destruct Fd as (nd' & p' & Fn & In2 & Nm'). exists nd', p'. split; auto.
  destruct (pipeline_nodes _ _ H _ In2) as (o' & a' & sn2 & d' & Ia' & _ & _ & Co').
  destruct (Fr _ _ _ Co') as (Nm2 & Ti' & To'). 
  assert (sn2 = sn'); [|subst; auto].
  pose proof (pipeline_names _ _ H) as N.
  assert (N2 : s_name sn2 = s_name sn') by congruence. clear -N N2 Ia Ia'.
  assert (In3 : forall a sn q, In (a, XNode sn) q -> In (s_name sn) (flat_map (fun d : sattrdecl => match snd d with XNode sn => [s_name sn] | _ => [] end) q)).
  { intros b s q I. apply in_flat_map. exists (b, XNode s). cbn. auto. }
  induction p as [|[b y] p IH]; [destruct Ia|]. cbn [flat_map snd] in N.
  destruct Ia as [Ia|Ia], Ia' as [Ia'|Ia'].
  - congruence.
  - inversion Ia; subst. cbn in N. inversion N; subst. exfalso. apply H1. rewrite <- N2. eauto.
  - inversion Ia'; subst. cbn in N. inversion N; subst. exfalso. apply H1. rewrite N2. eauto.
  - apply IH; auto. destruct y; cbn in N; auto. inversion N; auto.
Qed.

Lemma typed_extern : forall gl X Q x i o, typed_prog gl X Q -> In (IExt x i o) (plain Q) -> X x i o.
Proof.
  induction Q as [|[d sg] Q IH]; intros x i o T J; [destruct J|]. cbn [plain map fst] in J. destruct J as [->|J].
  - cbn in T. tauto.
  - apply IH; auto. destruct d; cbn in T; tauto.
Qed.

Lemma in_items_of : forall l x i o, (exists opt, In (DExtNode opt x i o) l) <-> In (IExt x i o) (items_of l).
Proof.
  intros l x i o. unfold items_of. rewrite <- in_rev, in_flat_map. split.
  - intros (opt & J). exists (DExtNode opt x i o). cbn. auto.
  - intros (d & J & K). destruct d; cbn in K; try tauto; destruct K as [K|[]]; inversion K; subst. eauto.
Qed.

Theorem program_safe : forall mode glob p l, result (pipeline p) = Some l -> closed p -> constants_ok p glob ->
  (forall o nd, In (DNode o nd) l -> node_safe o nd) ->
  forall sn, In sn (source_nodes p) ->
  exists i, init_inst (nodes_of l) (s_name sn) = Ok i /\
    forall theta ins, Forall (of_type theta (declared_type (s_inputs sn))) ins ->
    safe (run mode glob (nodes_of l) (s_name sn) i ins) (fun '(outs, _) => Forall (of_type theta (declared_type (s_outputs sn))) outs).
Proof.
  intros mode glob p l H Cl Co Sf sn Is.
  destruct (accepted_typed_prog _ _ H Sf) as (gl & Q & EQ & TQ & Gl).
  destruct (found_source _ _ H _ Is) as (nd & p' & Fn & Ti & To). rewrite <- Ti, <- To.
  assert (Ec : items_of l = map INode (nodes_of l)).
  { apply items_closed. intros o x i o' J. assert (K : In (IExt x i o') (plain Q)) by (rewrite EQ; apply in_items_of; eauto).
    destruct (typed_extern _ _ _ _ _ _ TQ K) as (a & si & so & J' & _). exact (Cl _ _ _ _ J'). }
  assert (Fi : find_item (plain Q) (s_name sn) = Some (INode nd)).
  { rewrite EQ, Ec. clear - Fn. induction (nodes_of l) as [|n P IH]; [discriminate|]. cbn [map find_item find_node item_name] in *.
    destruct (String.eqb (s_name sn) (n_name n)); [congruence|auto]. }
  destruct (init_types gl (declared_extern p) Q TQ _ _ Fi) as (i & Ei & Oi). rewrite EQ, Ec, xinit_closed in Ei. exists i. split; auto.
  intros theta ins Ft. 
  assert (Hgl : forall x b, gl x = Some b -> exists s, glob x = Some s /\ forall theta, sty_of s = kind_of theta b) by (intros; apply Co; auto).
  pose proof (run_types mode glob gl Hgl (fun _ _ _ => Panic PAssert) (declared_extern p)) as R.
  specialize (R ltac:(intros x ii oo (a & si & so & J' & _); exfalso; exact (Cl _ _ _ _ J')) Q (s_name sn) (INode nd) theta TQ Fi ins i (Oi theta) Ft).
  rewrite EQ, Ec, xrun_closed in R. destruct (run mode glob (nodes_of l) (s_name sn) i ins) as [[os i']|]; cbn in *; tauto.
Qed.

Theorem default_program_safe : forall mode glob p l, result (pipeline p) = Some l -> closed p -> default_mode p -> constants_ok p glob ->
  forall sn, In sn (source_nodes p) ->
  exists i, init_inst (nodes_of l) (s_name sn) = Ok i /\
    forall theta ins, Forall (of_type theta (declared_type (s_inputs sn))) ins ->
    safe (run mode glob (nodes_of l) (s_name sn) i ins) (fun '(outs, _) => Forall (of_type theta (declared_type (s_outputs sn))) outs).
Proof. intros mode glob p l H Cl D Co. apply (program_safe mode glob p l H Cl Co). eapply default_safe; eauto. Qed.
