(** The pipeline, declaration by declaration. *)
From Coq Require Import String List ZArith Bool Arith Lia Permutation.
From Verif Require Import Model.Base Model.Scalar Model.Value Model.Ast Model.Errors Model.Interp Model.Options Model.Surface Model.Translate
  Model.Graph Model.Causality Model.Typecheck Model.Clockcheck Model.Positivity Model.Pipeline
  Spec.GraphSpec Spec.StepSpec Spec.CausalitySpec Proofs.AstInd Proofs.OutBasics
  Proofs.GraphProofs Proofs.CausalityProofs Proofs.TranslateStruct Proofs.NodeWf.
Import ListNotations.

(** ** Options *)
Definition is_universal (a : attribute) : bool := String.eqb (a_action a) "universal_pre"%string.

Lemma with_attr_universal : forall d a d', result (with_attr d a) = Some d' ->
  d_universal d' = if is_universal a then Some true else d_universal d.
Proof.
  intros d a d' H. unfold with_attr in H. destruct d as [tr ex pu ma te al do ti ge un]. unfold is_universal.
  Ltac one := match goal with
    | H : result (if String.eqb ?x ?s then _ else _) = Some _ |- _ =>
        let E := fresh "E" in destruct (String.eqb x s) eqn:E;
        [apply String.eqb_eq in E; try rewrite E; cbn [String.eqb Ascii.eqb Bool.eqb]|]
    end.
  Ltac two a := destruct (a_params a) as [|p1 [|p2 ps]]; destruct (a_targets a) as [|[ | | ] [|[ | | ] [|? ?]]];
    inv_out; try discriminate; auto.
  one; [two a; destruct (String.eqb p1 "stdout"%string), (String.eqb p1 "stderr"%string); inv_out; auto|].
  one; [two a|]. one; [two a|]. one; [two a|]. one; [two a|].
  one; [two a; destruct (is_usize _); inv_out; auto|].
  one; [two a; destruct (is_usize _); inv_out; auto|].
  one; [two a|]. one; [two a|]. one; [two a|]. one; [two a|]. inv_out.
Qed.

Lemma with_attrs_universal : forall l d d', result (with_attrs d l) = Some d' ->
  d_universal d' = if existsb is_universal l then Some true else d_universal d.
Proof.
  induction l as [|a l IH]; intros d d' H; cbn [with_attrs] in H; inv_out; auto.
  apply IH in H. apply with_attr_universal in E. simpl. rewrite H, E.
  destruct (is_universal a), (existsb is_universal l); auto.
Qed.

Lemma node_opts_universal : forall a d o, result (with_attrs no_opts a) = Some d -> result (for_node d) = Some o ->
  o_universal o = existsb is_universal a.
Proof.
  intros a d o H K. apply with_attrs_universal in H. unfold for_node in K. inv_out. simpl. rewrite H.
  destruct (existsb is_universal a); auto.
Qed.

(** ** Forward: each declaration goes through every pass *)
Definition node_of (d : decl) : list (node_opts * node) := match d with DNode o nd => [(o, nd)] | _ => [] end.

(** From source declarations to a list of declarations: [R] relates a node of
    the latter to its origin. *)
Lemma forall2_flat : forall {A B C} (f : A -> list C) (g : B -> list C) (R : A -> B -> Prop),
  (forall a b c, R a b -> In c (g b) -> In c (f a)) ->
  forall l l', Forall2 R l l' -> forall c, In c (flat_map g l') -> In c (flat_map f l).
Proof.
  intros A B C f g R H. induction 1; intros c I; simpl in *; auto. rewrite in_app_iff in *. destruct I; eauto.
Qed.

Lemma decls_causality_some : forall l l', decls_causality l = inl l' -> Forall2 (fun d d' => decl_causality d = inl d') l l'.
Proof.
  induction l as [|d l IH]; intros l' H; simpl in H; [inversion H; constructor|].
  destruct (decl_causality d) eqn:E; [|discriminate]. destruct (decls_causality l); [|discriminate].
  inversion H; subst. constructor; auto.
Qed.

Lemma causality_some : forall l l', result (causality l) = Some l' ->
  exists l1, Forall2 (fun d d' => decl_causality d = inl d') l l1 /\ Permutation l' l1 /\
    prog_causality l = inl l'.
Proof.
  intros l l' H. unfold causality in H. destruct (prog_causality l) as [x|e] eqn:E; [|destruct e; discriminate].
  inv_out. pose proof E as E'. unfold prog_causality in E'. destruct (decls_causality l) as [l1|] eqn:D; [|discriminate].
  exists l1. split; [apply decls_causality_some; auto|]. split; auto.
  eapply schedule_perm; eauto. apply reference_eqb_spec.
Qed.

Inductive typed_decl : decl -> decl -> Prop :=
| td_node : forall gl fn o nd nd' gens, result (tc_node gl fn o nd) = Some (nd', gens) -> typed_decl (DNode o nd) (DNode o nd')
| td_other : forall d, node_of d = [] -> typed_decl d d.

Lemma tc_decls_some : forall l gl fn l', result (tc_decls gl fn l) = Some (true, l') -> Forall2 typed_decl l l'.
Proof.
  induction l as [|d l IH]; intros gl fn l' H; cbn [tc_decls] in H.
  - inv_out. constructor.
  - apply obind_some in H. destruct H as (r & E & H). apply attempt_some in E.
    apply obind_some in H. destruct H as ((gl', fn') & E1 & H).
    apply obind_some in H. destruct H as ((ok, ds) & E2 & H).
    destruct r as [d'|]; cbn in H; inversion H; subst.
    constructor; [|eauto].
    destruct d; inv_out; try (apply td_other; reflexivity). eapply td_node; eauto.
Qed.

Lemma typecheck_some : forall l l', result (typecheck l) = Some l' -> Forall2 typed_decl l l'.
Proof.
  intros l l' H. unfold typecheck in H. apply obind_some in H. destruct H as ((ok, x) & E & H).
  destruct ok; [|discriminate]. inv_out. eapply tc_decls_some; eauto.
Qed.

(** Origin of a node of the final program. *)
Definition origin (p : sprog) (o : node_opts) (nd : node) : Prop :=
  exists a sn d, In (a, XNode sn) p /\ result (with_attrs no_opts a) = Some d /\ result (for_node d) = Some o /\
    compiled_node o sn nd.

Lemma forall2_in_r : forall {A B} (R : A -> B -> Prop) l l', Forall2 R l l' -> forall b, In b l' -> exists a, In a l /\ R a b.
Proof. induction 1; intros c I; [destruct I|]. destruct I as [<-|I]; simpl; eauto. destruct (IHForall2 _ I) as (a & J & K). eauto. Qed.
Lemma forall2_in_l : forall {A B} (R : A -> B -> Prop) l l', Forall2 R l l' -> forall a, In a l -> exists b, In b l' /\ R a b.
Proof. induction 1; intros c I; [destruct I|]. destruct I as [<-|I]; simpl; eauto. destruct (IHForall2 _ I) as (a & J & K). eauto. Qed.

Lemma pipeline_inv : forall p l, result (pipeline p) = Some l -> exists l0 l1 l1' l2 l3,
  Forall2 (fun a d => result (tr_attrdecl a) = Some d) p l0 /\
  Forall2 (fun d d' => decl_causality d = inl d') l0 l1 /\
  Permutation l1' l1 /\ prog_causality l0 = inl l1' /\
  Forall2 typed_decl l1' l2 /\
  Forall2 (fun d d' => result (kc_decl d) = Some d') l2 l3 /\
  Forall2 (fun d d' => result (pos_decl d) = Some d') l3 l.
Proof.
  intros p l H. unfold pipeline, tr_prog, analyse, clockcheck, positivity in H. inv_out.
  apply causality_some in E0. destruct E0 as (l1 & A & B & C). apply typecheck_some in E1.
  exists r, l1, r0, r1, r2. repeat split; auto using omap_some.
Qed.

Lemma pipeline_origin : forall p l, result (pipeline p) = Some l ->
  forall o nd, In (DNode o nd) l -> origin p o nd.
Proof.
  intros p l H o nd I. destruct (pipeline_inv _ _ H) as (l0 & l1 & l1' & l2 & l3 & F0 & F1 & P & _ & F2 & F3 & F4).
  destruct (forall2_in_r _ _ _ F4 _ I) as (d3 & I3 & X3). destruct d3; cbn [pos_decl] in X3; inv_out.
  rename E into Y4.
  destruct (forall2_in_r _ _ _ F3 _ I3) as (d2 & I2 & X2). destruct d2; cbn [kc_decl] in X2; inv_out.
  rename E into Y3.
  destruct (forall2_in_r _ _ _ F2 _ I2) as (d1 & I1 & X1). inversion X1; subst; [|discriminate].
  apply (Permutation_in _ P) in I1.
  destruct (forall2_in_r _ _ _ F1 _ I1) as (d0 & I0 & X0). destruct d0 as [| o' n' | |]; cbn [decl_causality] in X0; try discriminate.
  destruct (node_causality n') eqn:C; [|discriminate]. inversion X0; subst.
  destruct (forall2_in_r _ _ _ F0 _ I0) as ((a, x) & Ia & Ea). unfold tr_attrdecl in Ea. cbn [fst snd] in Ea.
  apply obind_some in Ea. destruct Ea as (d & W & Ea).
  destruct x as [? ? e|sn| |]; cbn [tr_decl] in Ea; inv_out.
  { destruct (t_stmts t0), (t_blocks t0); inv_out. }
  exists a, sn, d. repeat split; auto. unfold compiled_node. eauto 15.
Qed.

(** ** Calls go to earlier declarations *)
Lemma nodes_of_app : forall a b, nodes_of (a ++ b) = nodes_of b ++ nodes_of a.
Proof. intros. unfold nodes_of. rewrite flat_map_app, rev_app_distr. auto. Qed.

Lemma nodes_of_in : forall l nd, In nd (nodes_of l) <-> exists o, In (DNode o nd) l.
Proof.
  intros l nd. unfold nodes_of. rewrite <- in_rev, in_flat_map. split.
  - intros (d & I & J). destruct d; simpl in J; try tauto. destruct J as [<-|[]]. eauto.
  - intros (o & I). exists (DNode o nd). simpl. auto.
Qed.

Lemma pipeline_nodes : forall p l, result (pipeline p) = Some l ->
  forall nd, In nd (nodes_of l) -> exists o, origin p o nd.
Proof. intros p l H nd I. apply nodes_of_in in I. destruct I as (o & I). exists o. eapply pipeline_origin; eauto. Qed.

(** Every source node is compiled. *)
Lemma pipeline_covers : forall p l, result (pipeline p) = Some l ->
  forall a sn, In (a, XNode sn) p -> exists d o nd, In (DNode o nd) l /\
    result (with_attrs no_opts a) = Some d /\ result (for_node d) = Some o /\ compiled_node o sn nd.
Proof.
  intros p l H a sn I. destruct (pipeline_inv _ _ H) as (l0 & l1 & l1' & l2 & l3 & F0 & F1 & P & _ & F2 & F3 & F4).
  destruct (forall2_in_l _ _ _ F0 _ I) as (d0 & I0 & Ea). unfold tr_attrdecl in Ea. cbn [fst snd] in Ea.
  apply obind_some in Ea. destruct Ea as (d & W & Ea). cbn [tr_decl] in Ea.
  apply obind_some in Ea. destruct Ea as (o & Fo & Ea). apply obind_some in Ea. destruct Ea as (nd0 & Tn & Ea).
  inversion Ea; subst d0.
  destruct (forall2_in_l _ _ _ F1 _ I0) as (d1 & I1 & X1). cbn [decl_causality] in X1.
  destruct (node_causality nd0) as [nd1|] eqn:C; [|discriminate]. inversion X1; subst d1.
  apply (Permutation_in _ (Permutation_sym P)) in I1.
  destruct (forall2_in_l _ _ _ F2 _ I1) as (d2 & I2 & X2). inversion X2 as [gl fn o' nd' nd2 gens T|d' E]; subst; [|discriminate].
  destruct (forall2_in_l _ _ _ F3 _ I2) as (d3 & I3 & X3). cbn [kc_decl] in X3.
  apply obind_some in X3. destruct X3 as (nd3 & K & X3). inversion X3; subst d3.
  destruct (forall2_in_l _ _ _ F4 _ I3) as (d4 & I4 & X4). cbn [pos_decl] in X4.
  apply obind_some in X4. destruct X4 as (nd4 & Po & X4). inversion X4; subst d4.
  exists d, o, nd4. repeat split; auto. unfold compiled_node. eauto 15.
Qed.

(** Node names are distinct. *)
Definition dnames (l : list decl) : list ident := flat_map (fun d => match d with DNode _ nd => [n_name nd] | _ => [] end) l.

Lemma forall2_flat_eq : forall {A B C} (f : A -> list C) (g : B -> list C) (R : A -> B -> Prop) l l',
  Forall2 R l l' -> (forall a b, R a b -> f a = g b) -> flat_map f l = flat_map g l'.
Proof. intros A B C f g R l l' H E. induction H; simpl; auto. rewrite IHForall2. f_equal. auto. Qed.

Lemma causality_name : forall nd nd', node_causality nd = inl nd' -> n_name nd' = n_name nd.
Proof.
  intros nd nd' H. unfold node_causality in H.
  repeat match type of H with match ?x with _ => _ end = _ => destruct x eqn:?; try discriminate end; inversion H; auto.
Qed.

Lemma source_names : forall p l0, Forall2 (fun a d => result (tr_attrdecl a) = Some d) p l0 ->
  dnames l0 = flat_map (fun d => match snd d with XNode sn => [s_name sn] | _ => [] end) p.
Proof.
  intros p l0 F. symmetry. eapply forall2_flat_eq; [exact F|]. intros (a, x) d Ea. unfold tr_attrdecl in Ea. cbn [fst snd] in *.
  apply obind_some in Ea. destruct Ea as (o & W & Ea).
  destruct x as [? ? e|sn| |]; cbn [tr_decl] in Ea; inv_out; auto.
  - destruct (t_stmts t0), (t_blocks t0); inv_out. auto.
  - f_equal. symmetry. match goal with E : result (tr_node _ _) = Some _ |- _ => apply tr_node_translated in E; apply (td_name _ _ _ E) end.
Qed.

Lemma provides_names : forall l, NoDup (flat_map decl_provides l) -> NoDup (dnames l).
Proof.
  intros l. assert (I : forall x m, In x (dnames m) -> In (RFun x) (flat_map decl_provides m)).
  { intros x m J. apply in_flat_map in J. destruct J as (d & J & K). apply in_flat_map. exists d. split; auto.
    destruct d; simpl in *; try tauto. destruct K as [<-|[]]. auto. }
  induction l as [|d l IH]; simpl; intros N; [constructor|]. destruct d; simpl in *; inversion N; subst; auto.
  constructor; auto.
Qed.

Lemma pipeline_names : forall p l, result (pipeline p) = Some l ->
  NoDup (flat_map (fun d => match snd d with XNode sn => [s_name sn] | _ => [] end) p).
Proof.
  intros p l H. destruct (pipeline_inv _ _ H) as (l0 & l1 & l1' & l2 & l3 & F0 & F1 & P & C & _ & _ & _).
  apply prog_unique in C. rewrite <- (source_names _ _ F0).
  assert (E : dnames l0 = dnames l1).
  { unfold dnames. eapply forall2_flat_eq; [exact F1|]. intros d d' X. destruct d; cbn [decl_causality] in X; inversion X; subst; auto.
    destruct (node_causality nd) eqn:Ec; [|discriminate]. inversion X; subst. rewrite (causality_name _ _ Ec). auto. }
  rewrite E. apply provides_names. eapply Permutation_NoDup; [|exact C]. apply Permutation_flat_map. auto.
Qed.
