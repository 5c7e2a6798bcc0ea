(** The programs that are accepted are the well-formed ones. *)
From Coq Require Import String List ZArith Bool Arith Lia Permutation.
From Verif Require Import Model.Base Model.Scalar Model.Value Model.Register Model.Ast Model.Errors Model.Interp Model.Options Model.Surface Model.Translate
  Model.Graph Model.Causality Model.Typecheck Model.Clockcheck Model.Positivity Model.Pipeline
  Spec.TranslateSpec Spec.GraphSpec Spec.ProgramSem Spec.SourceCausal Spec.AttrSpec Spec.ConstSpec Spec.CrashSpec Spec.TypeSpec Spec.ClockSpec Spec.Static
  Proofs.AstInd Proofs.OutBasics Proofs.CausalityProofs Proofs.TranslateStruct Proofs.PipelineProofs Proofs.Attrs Proofs.NoCrash Proofs.TypePipeline Proofs.DeclOrder
  Proofs.SourceCausality Proofs.StaticTypes Proofs.StaticStmts Proofs.StaticNode Proofs.StaticConst Proofs.StaticClocks Proofs.StaticPace Proofs.StaticPast Proofs.StaticNames.
Import ListNotations.
Local Open Scope string_scope.
Local Open Scope list_scope.

(** ** The passes, one declaration at a time *)
Definition passes (g : list (ident * base)) (f : list (ident * fsig)) (d : decl) : Prop :=
  exists d2 d3 d4, result (tc_one g f d) = Some d2 /\ result (kc_decl d2) = Some d3 /\ result (pos_decl d3) = Some d4.

Lemma all_pass : forall g f l, Forall (passes g f) l <-> exists l2 l3 l4,
  Forall2 (fun d d' => result (tc_one g f d) = Some d') l l2 /\ Forall2 (fun d d' => result (kc_decl d) = Some d') l2 l3 /\
  Forall2 (fun d d' => result (pos_decl d) = Some d') l3 l4.
Proof.
  intros g f l. split.
  - induction 1 as [|d l (d2 & d3 & d4 & A & B & C) H (l2 & l3 & l4 & F & G & K)].
    + exists [], [], []. repeat split; constructor.
    + exists (d2 :: l2), (d3 :: l3), (d4 :: l4). repeat split; constructor; auto.
  - intros (l2 & l3 & l4 & F & G & K). revert l3 l4 G K. induction F as [|d d2 l l2 A F IH]; intros l3 l4 G K; constructor.
    + inversion G as [|? d3 ? ? B]; subst. inversion K as [|? d4 ? ? C]; subst. exists d2, d3, d4. auto.
    + inversion G; subst. inversion K; subst. eapply IH; eauto.
Qed.
Lemma passes_same : forall g g' f f' d, (forall x, lookup x g = lookup x g') -> (forall x, lookup x f = lookup x f') -> passes g f d -> passes g' f' d.
Proof. intros g g' f f' d Hg Hf (d2 & d3 & d4 & A & B & C). exists d2, d3, d4. rewrite <- (tc_one_same g g' f f' d Hg Hf). auto. Qed.

Lemma accepted_iff : forall p, (exists l, result (pipeline p) = Some l) <->
  exists l0 m, Forall2 (fun a d => result (tr_attrdecl a) = Some d) p l0 /\ Forall2 (fun d d' => decl_causality d = inl d') l0 m /\
    NoDup (flat_map decl_provides m) /\ acyclic decl_provides decl_requires m /\ Forall (passes (consts m) (funs m)) m.
Proof.
  intros p. unfold pipeline, tr_prog, analyse, clockcheck, positivity. split.
  - intros (l & H). apply obind_some in H. destruct H as (l0 & E0 & H). apply obind_some in H. destruct H as (l1 & E1 & H).
    apply obind_some in H. destruct H as (l2 & E2 & H). apply obind_some in H. destruct H as (l3 & E3 & E4).
    apply omap_result in E0. apply causality_true in E1. apply typecheck_true in E2. apply omap_result in E3. apply omap_result in E4.
    unfold prog_causality in E1. destruct (decls_causality l0) as [m|] eqn:D; [|discriminate]. apply decls_causality_iff in D.
    exists l0, m. split; auto. split; auto.
    assert (X : exists out, schedule decl reference reference_eqb decl_provides decl_requires [] m [] = inl out) by eauto.
    apply (schedule_iff _ reference_eqb_spec) in X. destruct X as ([ND _] & _ & Ac). split; auto. split; auto.
    destruct (schedule_sorted _ _ E1) as [S1 N1]. pose proof E1 as Pm. apply (schedule_perm _ reference_eqb_spec) in Pm. destruct Pm as [Pm _].
    assert (Dp : forall d, In d l1 -> deep d).
    { intros d J. apply (Permutation_in _ Pm) in J. destruct (forall2_in_r _ _ _ D _ J) as (d0 & J0 & D0).
      destruct (forall2_in_r _ _ _ E0 _ J0) as (a & Ja & T). eapply accepted_deep; eauto. }
    apply (tc_sorted l1 [] l2) in E2; auto. cbn [app] in E2. destruct (context_perm _ _ Pm N1) as [Cg Cf].
    assert (K : Forall (passes (consts l1) (funs l1)) l1) by (apply all_pass; eauto 6).
    apply Forall_forall. intros d J. eapply passes_same; [exact Cg|exact Cf|]. rewrite Forall_forall in K. apply K.
    eapply Permutation_in; [apply Permutation_sym, Pm|auto].
  - intros (l0 & m & E0 & D & ND & Ac & K).
    assert (X : exists out, schedule decl reference reference_eqb decl_provides decl_requires [] m [] = inl out).
    { apply (schedule_iff _ reference_eqb_spec). split; [split; [auto|intros u []]|]. split; [intros u []|auto]. }
    destruct X as (l1 & E1). destruct (schedule_sorted _ _ E1) as [S1 N1]. pose proof E1 as Pm. apply (schedule_perm _ reference_eqb_spec) in Pm. destruct Pm as [Pm _].
    assert (Dp : forall d, In d l1 -> deep d).
    { intros d J. apply (Permutation_in _ Pm) in J. destruct (forall2_in_r _ _ _ D _ J) as (d0 & J0 & D0).
      destruct (forall2_in_r _ _ _ E0 _ J0) as (a & Ja & T). eapply accepted_deep; eauto. }
    destruct (context_perm _ _ (Permutation_sym Pm) ND) as [Cg Cf].
    assert (K1 : Forall (passes (consts l1) (funs l1)) l1).
    { apply Forall_forall. intros d J. eapply passes_same; [exact Cg|exact Cf|]. rewrite Forall_forall in K. apply K. eapply Permutation_in; eauto. }
    apply all_pass in K1. destruct K1 as (l2 & l3 & l4 & E2 & E3 & E4). exists l4.
    apply omap_result in E0. rewrite (obind_ok _ _ _ E0). apply decls_causality_iff in D.
    assert (C : result (causality l0) = Some l1) by (apply causality_true; unfold prog_causality; rewrite D; auto).
    rewrite (obind_ok _ _ _ C). assert (T : result (typecheck l1) = Some l2) by (apply typecheck_true; apply (tc_sorted l1 [] l2); auto).
    rewrite (obind_ok _ _ _ T). apply omap_result in E3. apply omap_result in E4. rewrite (obind_ok _ _ _ E3). auto.
Qed.

(** ** Attributes *)
Lemma set_latest : forall {A} (l : list A), is_set (latest l) = true <-> l <> [].
Proof.
  intros A [|a l]; [cbn; split; congruence|]. rewrite latest_cons. destruct (latest l); cbn; split; congruence.
Qed.
Lemma means_action : forall a e, means a e ->
  (a_action a = "main" <-> exists n, e = Main n) /\ (a_action a = "test" <-> exists n, e = Test n) /\ (a_action a = "universal_pre" <-> e = Universal).
Proof. intros a e M. destruct M; cbn; repeat split; intros Q; try discriminate; eauto; destruct Q; discriminate. Qed.
Lemma mains_given : forall a es, Forall2 means a es -> (is_set (latest (mains es)) = true <-> attribute_is "main" a).
Proof.
  intros a es M. rewrite set_latest. unfold attribute_is. induction M as [|x e a es M Ms IH]; [cbn; tauto|].
  destruct (means_action _ _ M) as (Q & _). cbn [map In]. rewrite <- IH, Q. unfold mains. cbn [flat_map].
  destruct e; cbn [app]; split; intros H; auto; try (destruct H as [(n0 & H)|H]; [discriminate|auto]); try (left; eauto; fail); discriminate.
Qed.
Lemma tests_given : forall a es, Forall2 means a es -> (is_set (latest (tests es)) = true <-> attribute_is "test" a).
Proof.
  intros a es M. rewrite set_latest. unfold attribute_is. induction M as [|x e a es M Ms IH]; [cbn; tauto|].
  destruct (means_action _ _ M) as (_ & Q & _). cbn [map In]. rewrite <- IH, Q. unfold tests. cbn [flat_map].
  destruct e; cbn [app]; split; intros H; auto; try (destruct H as [(n0 & H)|H]; [discriminate|auto]); try (left; eauto; fail); discriminate.
Qed.
Lemma universal_given : forall a es, Forall2 means a es -> (In Universal es <-> existsb (String.eqb "universal_pre") (map a_action a) = true).
Proof.
  intros a es M. induction M as [|x e a es M Ms IH]; [cbn; split; [tauto|discriminate]|].
  destruct (means_action _ _ M) as (_ & _ & Q). cbn [map In existsb]. rewrite orb_true_iff, <- IH, String.eqb_eq.
  split; (intros [H|H]; [left|auto]); [symmetry; apply Q; auto|apply Q; auto].
Qed.

(** What a declaration becomes, up to the ordering of its statements. *)
Inductive becomes : sattrdecl -> decl -> Prop :=
| bc_const : forall at_ x t e oc e' s, result (tr false [] e 0 tst0) = Some (e', s) -> t_stmts s = [] -> t_blocks s = [] ->
    becomes (at_, XConst x t e) (DConst oc x t e')
| bc_node : forall at_ sn o nd nd', result (tr_node o sn) = Some nd -> node_causality nd = inl nd' ->
    o_universal o = existsb (String.eqb "universal_pre") (map a_action at_) ->
    (is_set (o_main o) || is_set (o_test o) = true <-> attribute_is "main" at_ \/ attribute_is "test" at_) ->
    o_generics o = type_params at_ -> becomes (at_, XNode sn) (DNode o nd')
| bc_ext_const : forall at_ x t o, becomes (at_, XExtConst x t) (DExtConst o x t)
| bc_ext_node : forall at_ x i o' o, (is_set (oe_main o) = true <-> attribute_is "main" at_) -> oe_generics o = type_params at_ ->
    becomes (at_, XExtNode x i o') (DExtNode o x (tr_decls i) (tr_decls o')).

Lemma translated_bounded : forall o sn nd e, result (tr_node o sn) = Some nd -> In e (expressions (XNode sn)) -> bounded e.
Proof.
  intros o sn nd e H J. unfold tr_node in H. apply obind_some in H. destruct H as (s & E & _). cbn [expressions] in J.
  apply in_map_iff in J. destruct J as (i & Q & J). revert E. generalize tst0. induction (s_defs sn) as [|i' l IH]; intros s0 E; [destruct J|].
  cbn [tr_stmts] in E. apply obind_some in E. destruct E as (s1 & E1 & E). destruct J as [->|J]; [|eauto].
  destruct i as [t a|a]; subst e; cbn [tr_stmt] in E1; apply obind_some in E1; destruct E1 as (r & E1 & _); eapply bounded_tr; eauto.
Qed.

Lemma tr_becomes : forall a d0 d, result (tr_attrdecl a) = Some d0 -> decl_causality d0 = inl d ->
  attributes_ok a /\ small_literals (snd a) /\ becomes a d /\ match snd a with XNode sn => solvable sn | _ => True end.
Proof.
  intros [at_ sd] d0 d H D. unfold tr_attrdecl in H. cbn [fst snd] in *. apply obind_some in H. destruct H as (o & W & H).
  apply with_attrs_means in W. destruct W as (es & M & C & ->).
  assert (Ok : Forall (applies sd) es -> attributes_ok (at_, sd)) by (intros Ap; exists es; auto).
  destruct sd as [x t e|sn|x t|x i o']; cbn [tr_decl] in H; apply obind_some in H; destruct H as (oo & F & H).
  - destruct (const_opts_of _ x t e _ F) as [A B]. apply obind_some in H. destruct H as ((e', s) & E & H).
    destruct (t_stmts s) eqn:Es; [|discriminate]. destruct (t_blocks s) eqn:Eb; [|discriminate]. inversion H; subst. cbn in D. inversion D; subst.
    split; [auto|]. split; [|split; [econstructor; eauto|exact I]]. intros a z [<-|[]] J. eapply (bounded_tr _ _ _ _ _ _ E); eauto.
  - apply obind_some in H. destruct H as (nd & E & H). inversion H; subst. cbn [decl_causality] in D. destruct (node_causality nd) as [nd'|] eqn:N; [|discriminate].
    inversion D; subst. pose proof (node_opts_of _ _ F) as O.
    split; [apply Ok, Forall_forall; constructor|]. split; [intros e z J K; eapply translated_bounded; eauto|]. split.
    + econstructor; eauto.
      * apply eq_true_iff_eq. rewrite (no_universal _ _ O). apply universal_given. auto.
      * rewrite orb_true_iff, (no_main _ _ O), (no_test _ _ O), (mains_given _ _ M), (tests_given _ _ M). tauto.
      * rewrite (no_generics _ _ O). apply generics_params. auto.
    + eapply causality_source; eauto.
  - destruct (ext_const_opts_of _ x t _ F) as [A B]. inversion H; subst. cbn in D. inversion D; subst.
    split; [auto|]. split; [intros e z []|]. split; [constructor|exact I].
  - destruct (ext_node_opts_of _ x i o' _ F) as [A B]. inversion H; subst. cbn in D. inversion D; subst.
    split; [auto|]. split; [intros e z []|]. split; [constructor|exact I].
    + rewrite (eo_main _ _ A). apply mains_given. auto.
    + rewrite (eo_generics _ _ A). apply generics_params. auto.
Qed.

Lemma stmts_go : forall u locals vars consts nodes l, (forall i, In i l -> stmt_typed vars consts nodes i /\ bounded (right_side i)) ->
  forall s, exists s', result (tr_stmts u locals l s) = Some s'.
Proof.
  intros u locals vars consts nodes. induction l as [|i l IH]; intros H s; cbn [tr_stmts]; [cbn; eauto|].
  destruct (H i) as [T B]; [cbn; auto|]. assert (X : exists s1, result (tr_stmt u locals i s) = Some s1).
  { destruct i as [p e|e]; cbn [tr_stmt right_side] in *.
    - destruct T as (t & _ & T). destruct (typed_goes u locals vars consts nodes e t T B 0 s) as (e' & s' & E). rewrite (obind_ok _ _ _ E). cbn. eauto.
    - destruct (typed_goes u locals vars consts nodes e _ T B 0 s) as (e' & s' & E). rewrite (obind_ok _ _ _ E). cbn. eauto. }
  destruct X as (s1 & E). rewrite (obind_ok _ _ _ E). apply IH. intros. apply H. cbn. auto.
Qed.

Lemma ok_translates : forall p a, decl_ok p a -> exists d0 d, result (tr_attrdecl a) = Some d0 /\ decl_causality d0 = inl d.
Proof.
  intros p [at_ sd] ((es & M & C & Ap) & Sm & K). cbn [fst snd] in *. unfold tr_attrdecl. cbn [fst snd].
  rewrite (obind_ok _ _ _ (means_with_attrs _ _ M C no_opts)). pose proof (applies_ok _ _ Ap) as O.
  destruct sd as [x t e|sn|x t|x i o']; cbn [tr_decl]; destruct O as (o & O); rewrite O; cbn [obind done].
  - destruct K as [Kc Kt]. assert (B : bounded e) by (intros z J; eapply Sm; eauto; cbn; auto).
    destruct (typed_goes false [] _ _ _ e _ Kt B 0 tst0) as (e' & s' & E). destruct (tr_folds [] e _ _ _ _ E) as [_ S]. rewrite (S Kc) in E.
    exists (DConst o x t e'), (DConst o x t e'). split; [|reflexivity]. change (done o) with (@Out const_opts (Some o) [] []) in *. cbn.
    destruct (tr false [] e 0 tst0) as [[[e2 s2]|] es' ws|]; cbn in E; try discriminate. inversion E; subst. reflexivity.
  - destruct K as (_ & _ & _ & _ & So & K).
    destruct (stmts_go (o_universal o) (map v_name (tr_decls (s_inputs sn) ++ tr_decls (s_outputs sn) ++ tr_decls (s_locals sn))) _ _ _ (s_defs sn)
      (fun i J => conj (proj1 (K i J)) (fun z Z => Sm (right_side i) z (proj2 (in_map_iff _ _ _) (ex_intro _ i (conj (match i with XDef _ _ | XAssert _ => eq_refl end) J))) Z)) tst0) as (s & E).
    assert (T : exists nd, result (tr_node o sn) = Some nd) by (unfold tr_node; rewrite (obind_ok _ _ _ E); cbn; eauto).
    destruct T as (nd & T). destruct (proj2 (causality_source _ _ _ T) So) as (nd' & N).
    exists (DNode o nd), (DNode o nd'). split; [|cbn; rewrite N; reflexivity].
    destruct (tr_node o sn) as [[nd2|] es' ws|]; cbn in T; try discriminate. inversion T; subst. reflexivity.
  - exists (DExtConst o x t), (DExtConst o x t). split; reflexivity.
  - exists (DExtNode o x (tr_decls i) (tr_decls o')), (DExtNode o x (tr_decls i) (tr_decls o')). split; reflexivity.
Qed.

(** ** Names *)
Lemma becomes_provides : forall a d, becomes a d -> decl_provides d = [reference_of (introduces (snd a))].
Proof.
  intros a d B. destruct B; cbn [decl_provides snd introduces reference_of]; auto.
  apply node_stmts_perm in H0. destruct H0 as [_ ->]. cbn [n_name]. rewrite (tr_node_name _ _ _ H). reflexivity.
Qed.
Lemma becomes_requires : forall a d, becomes a d -> forall n, In (reference_of n) (decl_requires d) <-> mentions (snd a) n.
Proof.
  intros a d B n. destruct B; cbn [snd].
  - cbn [decl_requires]. rewrite (const_requires _ _ _ n H H0 H1). reflexivity.
  - rewrite <- (node_requires _ _ _ n H). apply node_stmts_perm in H0. destruct H0 as [Pm Q]. rewrite Q. cbn [decl_requires n_blocks n_stmts].
    rewrite !in_app_iff. assert (X : In (reference_of n) (flat_map stmt_requires (n_stmts nd')) <-> In (reference_of n) (flat_map stmt_requires (n_stmts nd))).
    { split; apply Permutation_in; apply Permutation_flat_map; auto using Permutation_sym. }
    rewrite X. reflexivity.
  - cbn. split; [tauto|]. intros (e & [] & _).
  - cbn. split; [tauto|]. intros (e & [] & _).
Qed.
Definition interface_sig (g : fsig) : interface := (g_params g, (g_ins g, g_outs g)).
Lemma becomes_const : forall a d, becomes a d -> const_of d = constant_of a.
Proof. intros a d B. destruct B; reflexivity. Qed.
Lemma becomes_fun : forall a d, becomes a d -> map (fun v => (fst v, interface_sig (snd v))) (fun_of d) = interface_of a.
Proof.
  intros a d B. destruct B; cbn [fun_of map fst snd interface_of]; auto.
  - pose proof (tr_node_name _ _ _ H) as N. pose proof (tr_node_translated _ _ _ H) as T. apply node_stmts_perm in H0. destruct H0 as [_ ->].
    unfold interface_sig, node_sig. cbn [n_name n_inputs n_outputs g_params g_ins g_outs].
    rewrite N, H3, (td_inputs _ _ _ T), (td_outputs _ _ _ T), !tr_types. reflexivity.
  - unfold interface_sig, ext_sig. cbn [g_params g_ins g_outs]. rewrite H0, !tr_types. reflexivity.
Qed.

Lemma names_distinct : forall p m, Forall2 becomes p m -> (NoDup (flat_map decl_provides m) <-> NoDup (map (fun a => introduces (snd a)) p)).
Proof.
  intros p m F. assert (E : flat_map decl_provides m = map reference_of (map (fun a => introduces (snd a)) p)).
  { induction F as [|a d p m B F IH]; auto. cbn [flat_map map]. rewrite (becomes_provides _ _ B), IH. reflexivity. }
  rewrite E. split; [apply NoDup_map_inv|]. intros N. apply FinFun.Injective_map_NoDup; auto. intros a b. apply reference_inj.
Qed.
Lemma names_follow : forall p m, Forall2 becomes p m -> forall i j, depends_on decl_provides decl_requires m i j <-> follows p i j.
Proof.
  intros p m F i j.
  assert (Fw : forall i d, nth_error m i = Some d -> exists a, nth_error p i = Some a /\ becomes a d).
  { clear i j. induction F as [|a d p m B F IH]; intros [|i] d' J; cbn in *; try discriminate; eauto. inversion J; subst. eauto. }
  assert (Bw : forall i a, nth_error p i = Some a -> exists d, nth_error m i = Some d /\ becomes a d).
  { clear i j Fw. induction F as [|a d p m B F IH]; intros [|i] d' J; cbn in *; try discriminate; eauto. inversion J; subst. eauto. }
  split.
  - intros (d & d' & u & Hd & Hd' & R & P). apply Fw in Hd. apply Fw in Hd'. destruct Hd as (a & Ha & B), Hd' as (a' & Ha' & B').
    rewrite (becomes_provides _ _ B') in P. destruct P as [<-|[]]. apply (becomes_requires _ _ B) in R. exists a, a'. auto.
  - intros (a & a' & Ha & Ha' & Q). apply Bw in Ha. apply Bw in Ha'. destruct Ha as (d & Hd & B), Ha' as (d' & Hd' & B').
    exists d, d', (reference_of (introduces (snd a'))). split; auto. split; auto. split; [apply (becomes_requires _ _ B); auto|].
    rewrite (becomes_provides _ _ B'). cbn. auto.
Qed.
Lemma names_acyclic : forall p m, Forall2 becomes p m -> (acyclic decl_provides decl_requires m <-> forall i, ~ follows_plus p i i).
Proof.
  intros p m F. assert (X : forall i j, depends_plus decl_provides decl_requires m i j <-> follows_plus p i j).
  { intros i j. split; induction 1 as [i j K|i j k K _ IH].
    - apply fp_one. apply (names_follow _ _ F). auto.
    - eapply fp_more; eauto. apply (names_follow _ _ F). auto.
    - apply dp_one. apply (names_follow _ _ F). auto.
    - eapply dp_more; eauto. apply (names_follow _ _ F). auto. }
  unfold acyclic. split; intros H i K; apply (H i), X; auto.
Qed.

Lemma constants_known : forall p m, Forall2 becomes p m -> NoDup (flat_map decl_provides m) -> forall x, lookup x (consts m) = lookup x (flat_map constant_of p).
Proof.
  intros p m F N x. assert (E : flat_map const_of m = flat_map constant_of p).
  { clear N. induction F as [|a d p m B F IH]; auto. cbn [flat_map]. rewrite (becomes_const _ _ B), IH. reflexivity. }
  rewrite <- E. unfold consts. symmetry. apply lookup_perm; [apply Permutation_rev|]. intros y a b. apply provided_consts. auto.
Qed.
Lemma interfaces_known : forall p m, Forall2 becomes p m -> NoDup (flat_map decl_provides m) ->
  forall h, lookup h (flat_map interface_of p) = option_map (fun g => (g_params g, (g_ins g, g_outs g))) (lookup h (funs m)).
Proof.
  intros p m F N x. assert (E : flat_map interface_of p = map (fun v => (fst v, interface_sig (snd v))) (flat_map fun_of m)).
  { clear N. induction F as [|a d p m B F IH]; auto. cbn [flat_map]. rewrite map_app, (becomes_fun _ _ B), IH. reflexivity. }
  rewrite E, lookup_pairs. unfold funs. rewrite <- (lookup_perm (flat_map fun_of m) (rev (flat_map fun_of m)) x); [reflexivity|apply Permutation_rev|].
  intros y a b. apply provided_funs. auto.
Qed.

(** ** One declaration *)
Definition parametrised (a : sattrdecl) : Prop :=
  match snd a with
  | XNode sn => well_parametrised (type_params (fst a)) (s_inputs sn) (s_outputs sn ++ s_locals sn)
  | XExtNode _ i o => well_parametrised (type_params (fst a)) i o
  | _ => True
  end.
Lemma passes_parametrised : forall g f a d, becomes a d -> passes g f d -> parametrised a.
Proof.
  intros g f a d B (d2 & d3 & d4 & T & _). destruct B; cbn [parametrised fst snd]; auto.
  - cbn [tc_one] in T. apply obind_some in T. destruct T as (r & T & _). unfold tc_node in T. apply obind_some in T. destruct T as (u1 & _ & T).
    apply obind_some in T. destruct T as (u2 & T & _). pose proof (tr_node_translated _ _ _ H) as Tr. apply node_stmts_perm in H0. destruct H0 as [_ E].
    rewrite E in T. cbn [n_inputs n_outputs n_locals] in T. rewrite (td_inputs _ _ _ Tr), (td_outputs _ _ _ Tr), (td_locals _ _ _ Tr) in T.
    assert (Ta : forall a b, tr_decls (a ++ b) = tr_decls a ++ tr_decls b) by (intros; apply flat_map_app).
    rewrite <- Ta, H3 in T. apply generics_fits. eauto.
  - cbn [tc_one] in T. apply obind_some in T. destruct T as (r & T & _). unfold tc_ext_node in T. apply obind_some in T. destruct T as (u1 & _ & T).
    apply obind_some in T. destruct T as (u2 & T & _). rewrite H0 in T. apply generics_fits. eauto.
Qed.
Lemma parametrised_sig : forall a d x g, becomes a d -> parametrised a -> In (x, g) (fun_of d) -> well_sig g.
Proof.
  intros a d x g B P J. destruct B; cbn [fun_of In] in J; try (destruct J; fail); destruct J as [J|[]]; inversion J; subst; cbn [parametrised fst snd] in P; destruct P as [P1 P2].
  - pose proof (tr_node_translated _ _ _ H) as Tr. apply node_stmts_perm in H0. destruct H0 as [_ E].
    unfold node_sig, well_sig. cbn [g_params g_ins g_outs]. rewrite H3. rewrite E. cbn [n_inputs n_outputs].
    rewrite (td_inputs _ _ _ Tr), (td_outputs _ _ _ Tr), !tr_types. rewrite types_app, types_app in P1. split; [split|]; intros K; auto.
    + apply P1. apply in_app_iff. auto.
    + intros Q. apply P1. rewrite !in_app_iff. auto.
  - unfold ext_sig, well_sig. cbn [g_params g_ins g_outs]. rewrite H0, !tr_types. rewrite types_app in P1. split; [split|]; intros K; auto.
    + apply P1. apply in_app_iff. auto.
    + intros Q. apply P1. rewrite !in_app_iff. auto.
Qed.

Lemma runnable_iff : forall P Q i o, (P <-> Q) -> (runnable P i o <-> runnable Q i o).
Proof. intros. unfold runnable. tauto. Qed.

Lemma fill_sourced : forall nd2 nd3, result (kc_node nd2) = Some nd3 -> filter sourced (n_stmts nd3) = filter sourced (n_stmts nd2).
Proof.
  intros nd2 nd3 K. unfold kc_node in K. apply obind_some in K. destruct K as (u & _ & K). apply obind_some in K. destruct K as (s & _ & K).
  apply obind_some in K. destruct K as (s' & _ & K). apply obind_some in K. destruct K as (l & E & K). inversion K; subst. cbn [n_stmts].
  clear K. apply omap_result in E. induction E as [|i i' l1 l2 Q E IH]; auto. cbn [filter]. rewrite IH.
  destruct i as [t e|e|id v c|id n]; cbn [fill_clock] in Q; try (inversion Q; subst; reflexivity).
  destruct (lookup_nat id s'); [|discriminate]. inversion Q; subst. reflexivity.
Qed.

Lemma one_fits : forall p g f a d, becomes a d ->
  (forall x, lookup x g = lookup x (flat_map constant_of p)) ->
  (forall h, lookup h (flat_map interface_of p) = option_map (fun g => (g_params g, (g_ins g, g_outs g))) (lookup h f)) ->
  (forall h s, lookup h f = Some s -> well_sig s) ->
  attributes_ok a -> small_literals (snd a) -> match snd a with XNode sn => solvable sn | _ => True end ->
  (passes g f d <-> decl_ok p a).
Proof.
  intros p g f a d B Hg Hf Hs Ao So Sv. unfold decl_ok. unfold passes.
  destruct B; cbn [fst snd] in *.
  - cbn [tc_one]. assert (X : (exists d2 d3 d4, result (_ <~ tc_const g t e';; done (DConst oc x t e')) = Some d2 /\ result (kc_decl d2) = Some d3 /\ result (pos_decl d3) = Some d4) <->
      exists u, result (tc_const g t e') = Some u).
    { split.
      - intros (d2 & d3 & d4 & T & _). apply obind_some in T. destruct T as (u & T & _). eauto.
      - intros (u & T). exists (DConst oc x t e'), (DConst oc x t e'), (DConst oc x t e'). rewrite (obind_ok _ _ _ T). auto. }
    rewrite X, (const_fits g (fun x => lookup x (flat_map constant_of p)) t e Hg _ _ H). tauto.
  - unfold node_ok. pose proof (node_types g f o sn nd nd' (fun x => lookup x (flat_map constant_of p)) (fun h => lookup h (flat_map interface_of p)) H H0 Hg Hf Hs) as Ty.
    cbn zeta in Ty. rewrite (runnable_iff _ _ _ _ H2), H3 in Ty. cbn zeta.
    assert (Nt : forall r, result (tc_node g f o nd') = Some r -> n_inputs (fst r) = n_inputs nd' /\ n_outputs (fst r) = n_outputs nd' /\ n_locals (fst r) = n_locals nd' /\ n_stmts (fst r) = n_stmts nd').
    { intros r T. unfold tc_node in T. repeat (apply obind_some in T; destruct T as (?r & ?E & T)). destruct r2 as [ok vars].
      repeat (apply obind_some in T; destruct T as (?r & ?E & T)). inversion T; subst. auto. }
    split.
    + intros (d2 & d3 & d4 & T & Kc & Po). cbn [tc_one] in T. apply obind_some in T. destruct T as ((nd2, gens) & T & Q). inversion Q; subst.
      destruct (Nt _ T) as (Q1 & Q2 & Q3 & Q4). cbn [fst] in *. destruct (proj1 Ty (ex_intro _ _ T)) as (T1 & T2 & T3 & T4).
      cbn [kc_decl] in Kc. apply obind_some in Kc. destruct Kc as (nd3 & Kc & Qk). inversion Qk; subst.
      pose proof (node_clocks o sn nd nd' nd2 H H0 (proj1 T3) Q1 Q2 Q3 Q4) as Cl. rewrite H1 in Cl. destruct (proj1 Cl (ex_intro _ _ Kc)) as (C1 & C2).
      cbn [pos_decl] in Po. apply obind_some in Po. destruct Po as (nd4 & Po & Q'). 
      assert (Fi : forall i, In i (filter sourced (n_stmts nd3)) <-> In i (filter sourced (n_stmts nd'))).
      { intros i. rewrite (fill_sourced _ _ Kc), Q4. reflexivity. }
      pose proof (node_past o sn nd nd' nd3 H H0 Fi) as Pa. rewrite H1 in Pa. pose proof (proj1 Pa (ex_intro _ _ Po)) as P1.
      split; auto. split; auto. split; [exact T1|]. split; [exact T2|]. split; [exact T3|]. split; [exact C1|]. split; [exact Sv|]. intros i J. auto.
    + intros (_ & _ & T1 & T2 & T3 & C1 & _ & K).
      assert (T4 : forall i, In i (s_defs sn) -> stmt_typed (fun x => option_map fst (lookup x (variables (s_inputs sn ++ s_outputs sn ++ s_locals sn))))
        (fun x => lookup x (flat_map constant_of p)) (fun h => lookup h (flat_map interface_of p)) i) by (intros i J; apply K; auto).
      destruct (proj2 Ty (conj T1 (conj T2 (conj T3 T4)))) as ((nd2, gens) & T). destruct (Nt _ T) as (Q1 & Q2 & Q3 & Q4). cbn [fst] in *.
      pose proof (node_clocks o sn nd nd' nd2 H H0 (proj1 T3) Q1 Q2 Q3 Q4) as Cl. rewrite H1 in Cl.
      destruct (proj2 Cl (conj C1 (fun i J => proj1 (proj2 (K i J))))) as (nd3 & Kc).
      assert (Fi : forall i, In i (filter sourced (n_stmts nd3)) <-> In i (filter sourced (n_stmts nd'))).
      { intros i. rewrite (fill_sourced _ _ Kc), Q4. reflexivity. }
      pose proof (node_past o sn nd nd' nd3 H H0 Fi) as Pa. rewrite H1 in Pa. destruct (proj2 Pa (fun i J => proj2 (proj2 (K i J)))) as (nd4 & Po).
      exists (DNode o nd2), (DNode o nd3), (DNode o nd4). cbn [tc_one kc_decl pos_decl]. rewrite (obind_ok _ _ _ T), (obind_ok _ _ _ Kc), (obind_ok _ _ _ Po). auto.
  - assert (X : exists d2 d3 d4, result (tc_one g f (DExtConst o x t)) = Some d2 /\ result (kc_decl d2) = Some d3 /\ result (pos_decl d3) = Some d4).
    { exists (DExtConst o x t), (DExtConst o x t), (DExtConst o x t). auto. }
    tauto.
  - rewrite (runnable_iff _ _ i o' (iff_sym H)). rewrite <- H0. pose proof (ext_node_fits o i o') as T. pose proof (implicit_fits (i ++ o')) as C.
    assert (Ta : forall a b, tr_decls (a ++ b) = tr_decls a ++ tr_decls b) by (intros; apply flat_map_app).
    rewrite Ta in C. split.
    + intros (d2 & d3 & d4 & E2 & E3 & E4). cbn [tc_one] in E2. apply obind_some in E2. destruct E2 as (u & E2 & Q). inversion Q; subst.
      cbn [kc_decl] in E3. apply obind_some in E3. destruct E3 as (u' & E3 & _). 
      destruct (proj1 T (ex_intro _ _ E2)) as (T1 & T2 & T3). pose proof (proj1 C (ex_intro _ _ E3)). tauto.
    + intros (_ & _ & T1 & T2 & T3 & T4). destruct (proj2 T (conj T1 (conj T2 T3))) as (u & E2). destruct (proj2 C T4) as (u' & E3).
      exists (DExtNode o x (tr_decls i) (tr_decls o')), (DExtNode o x (tr_decls i) (tr_decls o')), (DExtNode o x (tr_decls i) (tr_decls o')).
      cbn [tc_one kc_decl pos_decl]. rewrite (obind_ok _ _ _ E2), (obind_ok _ _ _ E3). auto.
Qed.

(** ** Programs *)
Theorem accepted_well_formed : forall p, (exists l, result (pipeline p) = Some l) <-> well_formed p.
Proof.
  intros p. rewrite accepted_iff. unfold well_formed. split.
  - intros (l0 & m & E0 & D & N & Ac & K).
    assert (F : Forall2 (fun a d => exists d0, result (tr_attrdecl a) = Some d0 /\ decl_causality d0 = inl d) p m).
    { revert m D N Ac K. induction E0 as [|a d0 p l0 T E0 IH]; intros m D N Ac K; inversion D; subst; constructor; eauto.
      clear - E0 H3. revert l' H3. induction E0; intros m D; inversion D; subst; constructor; eauto. }
    assert (B : Forall2 becomes p m).
    { eapply Forall2_weaken; [|exact F]. intros a d (d0 & T & C). eapply tr_becomes; eauto. }
    assert (Hp : forall a, In a p -> parametrised a).
    { intros a J. destruct (forall2_in_l _ _ _ B _ J) as (d & Jd & Bd). rewrite Forall_forall in K. eapply passes_parametrised; eauto. }
    split; [|split; [apply (names_distinct _ _ B); auto|apply (names_acyclic _ _ B); auto]].
    intros a J. destruct (forall2_in_l _ _ _ F _ J) as (d & Jd & d0 & T & C). destruct (tr_becomes _ _ _ T C) as (A1 & A2 & Bd & A3).
    rewrite Forall_forall in K. eapply (one_fits p (consts m) (funs m)); eauto.
    + apply constants_known; auto.
    + apply interfaces_known; auto.
    + intros h s L. apply lookup_some_in in L. apply in_rev in L. apply in_flat_map in L. destruct L as (d' & J' & L).
      destruct (forall2_in_r _ _ _ B _ J') as (a' & Ja & Ba). eapply parametrised_sig; eauto.
  - intros (Ok & N & Ac).
    assert (F : exists l0 m, Forall2 (fun a d => result (tr_attrdecl a) = Some d) p l0 /\ Forall2 (fun d d' => decl_causality d = inl d') l0 m /\ Forall2 becomes p m).
    { assert (T : forall a, In a p -> exists d0 d, result (tr_attrdecl a) = Some d0 /\ decl_causality d0 = inl d) by (intros a J; eapply ok_translates; eauto).
      clear - T. induction p as [|a p IH]; [exists [], []; repeat split; constructor|].
      destruct (T a) as (d0 & d & E & C); [cbn; auto|]. destruct IH as (l0 & m & F1 & F2 & F3); [intros; apply T; cbn; auto|].
      exists (d0 :: l0), (d :: m). repeat split; constructor; auto. eapply tr_becomes; eauto. }
    destruct F as (l0 & m & F1 & F2 & B). exists l0, m. split; auto. split; auto.
    assert (N' : NoDup (flat_map decl_provides m)) by (apply (names_distinct _ _ B); auto). split; auto. split; [apply (names_acyclic _ _ B); auto|].
    apply Forall_forall. intros d J. destruct (forall2_in_r _ _ _ B _ J) as (a & Ja & Bd). destruct (Ok a Ja) as (A1 & A2 & A3).
    eapply (one_fits p (consts m) (funs m)); eauto.
    + apply constants_known; auto.
    + apply interfaces_known; auto.
    + intros h s L. apply lookup_some_in in L. apply in_rev in L. apply in_flat_map in L. destruct L as (d' & J' & L).
      destruct (forall2_in_r _ _ _ B _ J') as (a' & Ja' & Ba). eapply parametrised_sig; eauto. destruct (Ok a' Ja') as (_ & _ & O).
      unfold parametrised. destruct (snd a'); auto; [destruct O as (_ & O & _)|destruct O as (_ & O & _)]; auto.
    + destruct (snd a); auto. destruct A3 as (_ & _ & _ & _ & S & _). auto.
Qed.
