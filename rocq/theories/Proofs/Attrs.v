(** Attributes and options. *)
From Coq Require Import String List ZArith Bool Arith Lia Permutation.
From Verif Require Import Model.Base Model.Scalar Model.Value Model.Ast Model.Errors Model.Interp Model.Options Model.Surface Model.Translate
  Model.Graph Model.Causality Model.Typecheck Model.Clockcheck Model.Positivity Model.Pipeline
  Spec.AttrSpec Proofs.OutBasics Proofs.NodeWf Proofs.Silent Proofs.PipelineProofs Proofs.CausalityProofs Proofs.FairPipeline.
Import ListNotations.
Local Open Scope string_scope.
Local Open Scope list_scope.

Definition apply (e : effect) (d : decl_opts) : decl_opts :=
  let '(mkDeclOpts tr ex pu ma te al do ti ge un) := d in
  match e with
  | Trace t => mkDeclOpts (Some (Some t)) ex pu ma te al do ti ge un
  | Export => mkDeclOpts tr (Some true) pu ma te al do ti ge un
  | Public => mkDeclOpts tr (Some true) (Some true) ma te al do ti ge un
  | Trait => mkDeclOpts tr ex pu ma te al do (Some true) ge un
  | Universal => mkDeclOpts tr ex pu ma te al do ti ge (Some true)
  | Main n => mkDeclOpts tr ex pu (Some (Some n)) te al do ti ge un
  | Test n => mkDeclOpts tr ex pu ma (Some (Some n)) al do ti ge un
  | Allow a => mkDeclOpts tr ex pu ma te (push al a) do ti ge un
  | Doc s => mkDeclOpts tr ex pu ma te al (push do s) ti ge un
  | Generic l => mkDeclOpts tr ex pu ma te al do ti (extend ge l) un
  end.
Definition apply_all (l : list effect) (d : decl_opts) : decl_opts := fold_left (fun d e => apply e d) l d.

Lemma check_generics_ok : forall types already, result (check_generics already types) <> None <->
  NoDup types /\ (forall t, In t types -> ~ In t already) /\ ~ In "int" types /\ ~ In "float" types /\ ~ In "bool" types.
Proof.
  induction types as [|t types IH]; intros already; cbn [check_generics].
  { split; intros; [|discriminate]. repeat split; try constructor; simpl; intros; tauto. }
  destruct (String.eqb_spec t "int") as [->|N1]; [split; [intros []; auto|simpl; tauto]|].
  destruct (String.eqb_spec t "float") as [->|N2]; [split; [intros []; auto|simpl; tauto]|].
  destruct (String.eqb_spec t "bool") as [->|N3]; [split; [intros []; auto|simpl; tauto]|].
  cbn [orb]. destruct (existsb (String.eqb t) already) eqn:X.
  - split; [intros []; auto|]. intros (_ & D & _). exfalso. apply existsb_exists in X. destruct X as (y & I & E).
    apply String.eqb_eq in E. subst y. apply (D t); simpl; auto.
  - assert (Nt : ~ In t already).
    { intros I. rewrite <- not_true_iff_false in X. apply X. apply existsb_exists. exists t. split; auto. apply String.eqb_refl. }
    rewrite IH. simpl. split.
    + intros (A & B & C). split; [constructor; auto; intros I; apply (B t I); auto|]. split; [|tauto].
      intros t0 [<-|I]; auto. intros J. apply (B t0 I). auto.
    + intros (A & B & C). inversion A; subst. split; auto. split; [|tauto].
      intros t0 I [->|J]; [tauto|]. apply (B t0); auto.
Qed.

Lemma check_generics_tt : forall types already, result (check_generics already types) = None \/
  check_generics already types = done tt.
Proof.
  induction types as [|t types IH]; intros already; cbn [check_generics]; auto.
  destruct (_ || _)%bool; auto. destruct (existsb _ _); auto.
Qed.

Ltac one := match goal with
  | H : result (if String.eqb ?x ?s then _ else _) = Some _ |- _ =>
      let E := fresh "E" in destruct (String.eqb_spec x s) as [E|E]; [subst x|]
  end.
Ltac two p t := destruct p as [|p1 [|p2 p]]; destruct t as [|[ | | ] [|[ | | ] [|? ?]]]; inv_out; try discriminate.

(** A successful attribute is well formed and has its effect. *)
Lemma with_attr_means : forall d a d', result (with_attr d a) = Some d' ->
  exists e, means a e /\ countable e /\ d' = apply e d.
Proof.
  intros d [act p t] d' H. unfold with_attr in H. destruct d as [tr ex pu ma te al do ti ge un]. cbn [a_action a_params a_targets] in H.
  one.
  { apply obind_some in H. destruct H as (r & Ed & H). apply obind_some in H. destruct H as (r0 & Ef & H).
    apply obind_some in H. destruct H as (u0 & _ & H). inversion H; subst. clear H.
    exists (Trace (r, r0)). split; [|split; [exact I|auto]]. constructor.
    - destruct p as [|p1 [|p2 p]]; inv_out; [constructor|].
      destruct (String.eqb_spec p1 "stdout") as [->|]; [inv_out; constructor|].
      destruct (String.eqb_spec p1 "stderr") as [->|]; inv_out; constructor.
    - destruct t as [|[ | | ] [|[ | | ] [|? ?]]]; inv_out; constructor. }
  one; [two p t; exists Export; repeat split; constructor|].
  one; [two p t; exists Public; repeat split; constructor|].
  one; [two p t; exists Trait; repeat split; constructor|].
  one; [two p t; exists Universal; repeat split; constructor|].
  one.
  { two p t; [exists (Main 100); repeat split; try constructor; discriminate|].
    destruct (is_usize z) eqn:L; inv_out. exists (Main z). split; [constructor|]. split; [unfold is_usize in L; cbn; lia|auto]. }
  one.
  { two p t; [exists (Test 100); repeat split; try constructor; discriminate|].
    destruct (is_usize z) eqn:L; inv_out. exists (Test z). split; [constructor|]. split; [unfold is_usize in L; cbn; lia|auto]. }
  one; [two p t; exists (Allow (AllowRustc p1)); repeat split; constructor|].
  one; [two p t; exists (Allow (AllowClippy p1)); repeat split; constructor|].
  one; [two p t; eexists (Doc _); repeat split; constructor|].
  one; [|inv_out].
  destruct t; [|discriminate]. inv_out. exists (Generic p). split; [|split; [exact I|auto]].
  assert (N : result (check_generics [] p) <> None) by congruence.
  apply check_generics_ok in N. destruct N as (A & _ & B & C & D). constructor; auto.
Qed.

(** Conversely a well-formed attribute is never refused. *)
Lemma means_with_attr : forall a e, means a e -> countable e -> forall d, result (with_attr d a) = Some (apply e d).
Proof.
  intros a e M C d. destruct d as [tr ex pu ma te al do ti ge un].
  destruct M as [ps ts de f Hd Hf| | | | | |n| |n|x|x|s|l N1 N2 N3 N4];
    cbn [with_attr a_action a_params a_targets String.eqb Ascii.eqb Bool.eqb apply].
  - destruct Hd, Hf; cbn; destruct tr; reflexivity.
  - unfold conflicting, duplicate. destruct te, ex; reflexivity.
  - unfold conflicting, duplicate. destruct te, ex, pu; reflexivity.
  - unfold duplicate. destruct ti; reflexivity.
  - unfold duplicate. destruct un; reflexivity.
  - unfold conflicting, duplicate. destruct te, ma; reflexivity.
  - assert (E : is_usize n = true) by (cbn in C; unfold is_usize; lia). unfold conflicting, duplicate. rewrite E. destruct te, ma; reflexivity.
  - unfold conflicting, duplicate. destruct te, ma, ex, pu; reflexivity.
  - assert (E : is_usize n = true) by (cbn in C; unfold is_usize; lia). unfold conflicting, duplicate. rewrite E. destruct te, ma; reflexivity.
  - reflexivity.
  - reflexivity.
  - reflexivity.
  - destruct (check_generics_tt l []) as [F|F]; [|rewrite F; reflexivity].
    exfalso. assert (K : result (check_generics [] l) <> None); [|tauto]. apply check_generics_ok. repeat split; auto.
Qed.

Lemma with_attrs_means : forall l d d', result (with_attrs d l) = Some d' ->
  exists es, Forall2 means l es /\ Forall countable es /\ d' = apply_all es d.
Proof.
  induction l as [|a l IH]; intros d d' H; cbn [with_attrs] in H.
  - inv_out. exists []. repeat split; constructor.
  - inv_out. apply with_attr_means in E. destruct E as (e & M & C & ->). apply IH in H.
    destruct H as (es & Ms & Cs & ->). exists (e :: es). repeat split; constructor; auto.
Qed.

Lemma means_with_attrs : forall l es, Forall2 means l es -> Forall countable es -> forall d,
  result (with_attrs d l) = Some (apply_all es d).
Proof.
  induction 1 as [|a e l es M Ms IH]; intros C d; cbn [with_attrs]; auto. inversion C; subst.
  rewrite result_obind, (means_with_attr _ _ M); auto. apply IH. auto.
Qed.

Lemma means_det : forall a e e', means a e -> means a e' -> e = e'.
Proof.
  intros a e e' M M'. destruct M; inversion M'; subst; auto.
  repeat match goal with H : destination _ _ |- _ => inversion H; clear H; subst | H : formats _ _ |- _ => inversion H; clear H; subst end;
    try congruence.
Qed.

(** ** The options of a list of effects *)
Definition or_set {A} (a b : option A) : option A := match a with Some _ => a | None => b end.
Lemma latest_cons : forall {A} (a : A) l, latest (a :: l) = or_set (latest l) (Some a).
Proof.
  intros A a l. revert a. induction l as [|b l IH]; intros a; auto.
  change (latest (a :: b :: l)) with (latest (b :: l)). rewrite IH. destruct (latest l); reflexivity.
Qed.

Lemma all_trace : forall es d, d_trace (apply_all es d) = or_set (option_map Some (latest (traces es))) (d_trace d).
Proof.
  unfold apply_all, traces. induction es as [|e es IH]; intros d; auto. simpl. rewrite IH. destruct d, e; auto.
  cbn [app]. rewrite latest_cons. destruct (latest _); auto.
Qed.
Lemma all_main : forall es d, d_main (apply_all es d) = or_set (option_map Some (latest (mains es))) (d_main d).
Proof.
  unfold apply_all, mains. induction es as [|e es IH]; intros d; auto. simpl. rewrite IH. destruct d, e; auto.
  cbn [app]. rewrite latest_cons. destruct (latest _); auto.
Qed.
Lemma all_test : forall es d, d_test (apply_all es d) = or_set (option_map Some (latest (tests es))) (d_test d).
Proof.
  unfold apply_all, tests. induction es as [|e es IH]; intros d; auto. simpl. rewrite IH. destruct d, e; auto.
  cbn [app]. rewrite latest_cons. destruct (latest _); auto.
Qed.

Definition flags (f : effect -> bool) (es : list effect) (o : option bool) : option bool :=
  if existsb f es then Some true else o.
Definition is_export (e : effect) : bool := match e with Export | Public => true | _ => false end.
Definition is_pub (e : effect) : bool := match e with Public => true | _ => false end.
Definition is_trait (e : effect) : bool := match e with Trait => true | _ => false end.
Definition is_univ (e : effect) : bool := match e with Universal => true | _ => false end.
Ltac flagged es IH e d := unfold apply_all, flags; induction es as [|e es IH]; intros d; auto; simpl; rewrite IH;
  destruct d, e; cbn; auto; destruct (existsb _ es); auto.
Lemma all_export : forall es d, d_export (apply_all es d) = flags is_export es (d_export d).
Proof. flagged es IH e d. Qed.
Lemma all_public : forall es d, d_public (apply_all es d) = flags is_pub es (d_public d).
Proof. flagged es IH e d. Qed.
Lemma all_trait : forall es d, d_trait (apply_all es d) = flags is_trait es (d_trait d).
Proof. flagged es IH e d. Qed.
Lemma all_universal : forall es d, d_universal (apply_all es d) = flags is_univ es (d_universal d).
Proof. flagged es IH e d. Qed.

Definition is_allow (e : effect) : bool := match e with Allow _ => true | _ => false end.
Definition is_doc (e : effect) : bool := match e with Doc _ => true | _ => false end.
Definition is_generic (e : effect) : bool := match e with Generic _ => true | _ => false end.
Lemma take_push : forall {A} (o : setopt (list A)) a, take [] (push o a) = take [] o ++ [a].
Proof. intros A [l|] a; auto. Qed.
Lemma take_extend : forall {A} (o : setopt (list A)) l, take [] (extend o l) = take [] o ++ l.
Proof. intros A [x|] l; auto. Qed.
Lemma all_allow : forall es d, take [] (d_allow (apply_all es d)) = take [] (d_allow d) ++ allows es.
Proof.
  unfold apply_all, allows. induction es as [|e es IH]; intros d; simpl; [rewrite app_nil_r; auto|].
  rewrite IH. destruct d as [tr ex pu ma te al do ti ge un], e; auto. cbn [apply d_allow app]. rewrite take_push, <- app_assoc. auto.
Qed.
Lemma all_doc : forall es d, take [] (d_doc (apply_all es d)) = take [] (d_doc d) ++ docs es.
Proof.
  unfold apply_all, docs. induction es as [|e es IH]; intros d; simpl; [rewrite app_nil_r; auto|].
  rewrite IH. destruct d as [tr ex pu ma te al do ti ge un], e; auto. cbn [apply d_doc app]. rewrite take_push, <- app_assoc. auto.
Qed.
Lemma all_generics : forall es d, take [] (d_generics (apply_all es d)) = take [] (d_generics d) ++ generics es.
Proof.
  unfold apply_all, generics. induction es as [|e es IH]; intros d; simpl; [rewrite app_nil_r; auto|].
  rewrite IH. destruct d as [tr ex pu ma te al do ti ge un], e; auto. cbn [apply d_generics]. rewrite take_extend, <- app_assoc. auto.
Qed.
Definition set_by {A} (f : effect -> bool) (es : list effect) (o o' : setopt A) : Prop :=
  is_set o' = is_set o || existsb f es.
Ltac seen es IH e d := unfold apply_all, set_by; induction es as [|e es IH]; intros d; simpl; [rewrite orb_false_r; auto|]; rewrite IH;
  destruct d as [? ? ? ? ? al do ? ge ?], e; cbn; auto; try destruct al; try destruct do; try destruct ge; cbn; rewrite ?orb_true_r; auto.
Lemma set_doc : forall es d, set_by is_doc es (d_doc d) (d_doc (apply_all es d)).
Proof. seen es IH e d. Qed.
Lemma set_generic : forall es d, set_by is_generic es (d_generics d) (d_generics (apply_all es d)).
Proof. seen es IH e d. Qed.

Lemma take_or : forall {A} (o : option A), take None (or_set (option_map Some o) None) = o.
Proof. intros A [a|]; auto. Qed.
Lemma take_flag : forall f es, take false (flags f es None) = existsb f es.
Proof. intros. unfold flags. destruct (existsb f es); auto. Qed.
Lemma flag_in : forall (f : effect -> bool) es e, (forall x, f x = true <-> x = e) -> existsb f es = true <-> In e es.
Proof.
  intros f es e H. rewrite existsb_exists. split; [intros (x & I & F); apply H in F; subst; auto|].
  intros I. exists e. split; auto. apply H. auto.
Qed.
Lemma export_in : forall es, existsb is_export es = true <-> In Export es \/ In Public es.
Proof.
  intros es. rewrite existsb_exists. split.
  - intros (x & I & F). destruct x; try discriminate; auto.
  - intros [I|I]; eexists; split; eauto.
Qed.
Ltac flagging := apply flag_in; intros []; simpl; split; intros; congruence.

Lemma node_opts_of : forall es o, result (for_node (apply_all es no_opts)) = Some o -> node_options es o.
Proof.
  intros es o H. unfold for_node in H. inv_out.
  rewrite all_trace, all_export, all_public, all_main, all_allow, all_doc, all_trait, all_test, all_generics, all_universal.
  cbn [no_opts d_trace d_export d_public d_main d_allow d_doc d_trait d_test d_generics d_universal].
  constructor; cbn [o_trace o_export o_public o_main o_allow o_doc o_trait o_test o_generics o_universal];
    rewrite ?take_or, ?take_flag; auto; try apply export_in; flagging.
Qed.

Lemma skip_some : forall {A} (o : setopt A), result (skip o) = Some tt <-> o = None.
Proof. intros A [a|]; cbn; split; intros; congruence. Qed.
Ltac skips := repeat match goal with H : result (skip _) = Some ?u |- _ => destruct u; apply skip_some in H end.

Lemma unset_latest : forall {A} (l : list A), or_set (option_map Some (latest l)) None = None -> l = [].
Proof. intros A [|a l]; auto. rewrite latest_cons. destruct (latest l); discriminate. Qed.
Lemma unset_flag : forall f es, flags f es None = None -> forall e, In e es -> f e = false.
Proof.
  intros f es H e I. unfold flags in H. destruct (existsb f es) eqn:X; [discriminate|].
  rewrite <- not_true_iff_false in X. apply not_true_iff_false. intros F. apply X. apply existsb_exists. eauto.
Qed.
Lemma unset_set : forall {A} f es (o : setopt A), set_by f es None o -> o = None -> forall e, In e es -> f e = false.
Proof.
  intros A f es o S -> e I. unfold set_by in S. cbn in S. apply not_true_iff_false. intros F.
  assert (X : existsb f es = true) by (apply existsb_exists; eauto). congruence.
Qed.
Lemma no_trace_in : forall es, traces es = [] -> forall t, ~ In (Trace t) es.
Proof. intros es E t I. assert (J : In t (traces es)) by (apply in_flat_map; exists (Trace t); simpl; auto). rewrite E in J. destruct J. Qed.
Lemma no_main_in : forall es, mains es = [] -> forall t, ~ In (Main t) es.
Proof. intros es E t I. assert (J : In t (mains es)) by (apply in_flat_map; exists (Main t); simpl; auto). rewrite E in J. destruct J. Qed.
Lemma no_test_in : forall es, tests es = [] -> forall t, ~ In (Test t) es.
Proof. intros es E t I. assert (J : In t (tests es)) by (apply in_flat_map; exists (Test t); simpl; auto). rewrite E in J. destruct J. Qed.

Ltac facts es :=
  repeat match goal with
  | H : d_trace (apply_all es no_opts) = None |- _ => rewrite all_trace in H; apply unset_latest in H; pose proof (no_trace_in _ H); clear H
  | H : d_main (apply_all es no_opts) = None |- _ => rewrite all_main in H; apply unset_latest in H; pose proof (no_main_in _ H); clear H
  | H : d_test (apply_all es no_opts) = None |- _ => rewrite all_test in H; apply unset_latest in H; pose proof (no_test_in _ H); clear H
  | H : d_export (apply_all es no_opts) = None |- _ => rewrite all_export in H; pose proof (unset_flag _ _ H); clear H
  | H : d_public (apply_all es no_opts) = None |- _ => rewrite all_public in H; pose proof (unset_flag _ _ H); clear H
  | H : d_trait (apply_all es no_opts) = None |- _ => rewrite all_trait in H; pose proof (unset_flag _ _ H); clear H
  | H : d_universal (apply_all es no_opts) = None |- _ => rewrite all_universal in H; pose proof (unset_flag _ _ H); clear H
  | H : d_doc (apply_all es no_opts) = None |- _ => pose proof (unset_set _ _ _ (set_doc es no_opts) H); clear H
  | H : d_generics (apply_all es no_opts) = None |- _ => pose proof (unset_set _ _ _ (set_generic es no_opts) H); clear H
  end.
Ltac inapplicable := match goal with
  | I : In _ _, H : forall e, In e _ -> _ = false |- _ => specialize (H _ I); discriminate H
  | I : In _ _, H : forall t, ~ In _ _ |- _ => destruct (H _ I)
  end.

Lemma const_opts_of : forall es x t v o, result (for_const (apply_all es no_opts)) = Some o ->
  const_options es o /\ Forall (applies (XConst x t v)) es.
Proof.
  intros es x t v o H. unfold for_const in H. inv_out. skips. facts es. split.
  - rewrite all_export, all_public, all_allow, all_doc. constructor; cbn [oc_export oc_public oc_allow oc_doc]; rewrite ?take_flag; auto.
    + apply export_in.
    + flagging.
  - apply Forall_forall. intros e I. destruct e; try constructor; exfalso; inapplicable.
Qed.
Lemma ext_const_opts_of : forall es x t o, result (for_ext_const (apply_all es no_opts)) = Some o ->
  ox_allow o = allows es /\ Forall (applies (XExtConst x t)) es.
Proof.
  intros es x t o H. unfold for_ext_const in H. inv_out. skips. facts es. split.
  - cbn [ox_allow]. rewrite all_allow. reflexivity.
  - apply Forall_forall. intros e I. destruct e; try constructor; exfalso; inapplicable.
Qed.
Lemma ext_node_opts_of : forall es x i o' o, result (for_ext_node (apply_all es no_opts)) = Some o ->
  ext_node_options es o /\ Forall (applies (XExtNode x i o')) es.
Proof.
  intros es x i o' o H. unfold for_ext_node in H. inv_out. skips. facts es. split.
  - rewrite all_trace, all_main, all_allow, all_generics. constructor; cbn [oe_trace oe_main oe_allow oe_generics]; auto; apply take_or.
  - apply Forall_forall. intros e I. destruct e; try constructor; exfalso; inapplicable.
Qed.

(** ** A translated declaration *)

Lemma tr_node_name : forall o sn nd, result (tr_node o sn) = Some nd -> n_name nd = s_name sn.
Proof. intros o sn nd H. unfold tr_node in H. inv_out. reflexivity. Qed.

Lemma tr_attributed : forall a d, result (tr_attrdecl a) = Some d -> attributed a d.
Proof.
  intros [a s] d H. unfold tr_attrdecl in H. cbn [fst snd] in H. apply obind_some in H. destruct H as (o & W & H).
  apply with_attrs_means in W. destruct W as (es & M & C & ->). exists es. cbn [fst snd]. split; auto.
  destruct s as [x t v|sn|x t|x i o']; cbn [tr_decl] in H; apply obind_some in H; destruct H as (o & F & H).
  - destruct (const_opts_of _ x t v _ F) as [A B]. split; auto. inv_out. destruct (t_stmts t0), (t_blocks t0); inv_out. constructor. auto.
  - split; [apply Forall_forall; constructor|]. inv_out. constructor; [eapply node_opts_of; eauto|eapply tr_node_name; eauto].
  - destruct (ext_const_opts_of _ x t _ F) as [A B]. split; auto. inv_out. constructor. auto.
  - destruct (ext_node_opts_of _ x i o' _ F) as [A B]. split; auto. inv_out. constructor. auto.
Qed.

(** Well-formed applicable attributes are never the reason of a refusal. *)

Lemma latest_none : forall {A} (l : list A), l = [] -> or_set (option_map Some (latest l)) None = None.
Proof. intros A l ->. reflexivity. Qed.
Lemma flags_none : forall f es, (forall e, In e es -> f e = false) -> flags f es None = None.
Proof.
  intros f es H. unfold flags. destruct (existsb f es) eqn:X; auto. apply existsb_exists in X. destruct X as (e & I & F).
  rewrite (H _ I) in F. discriminate.
Qed.
Lemma set_none : forall {A} f es (o : setopt A), set_by f es None o -> (forall e, In e es -> f e = false) -> o = None.
Proof.
  intros A f es o S H. unfold set_by in S. cbn in S. destruct o; auto. cbn in S. symmetry in S. apply existsb_exists in S.
  destruct S as (e & I & F). rewrite (H _ I) in F. discriminate.
Qed.
Lemma flat_none : forall {A} (f : effect -> list A) es, (forall e, In e es -> f e = []) -> flat_map f es = [].
Proof. induction es as [|e es IH]; intros H; auto. simpl. rewrite H; simpl; auto. apply IH. intros. apply H. simpl. auto. Qed.

Ltac unset es Ap :=
  rewrite ?all_trace, ?all_main, ?all_test, ?all_export, ?all_public, ?all_trait, ?all_universal;
  try (apply latest_none; apply flat_none);
  try apply flags_none;
  try (apply (set_none _ _ _ (set_doc es no_opts)));
  try (apply (set_none _ _ _ (set_generic es no_opts)));
  intros e I; rewrite Forall_forall in Ap; specialize (Ap _ I); inversion Ap; reflexivity.

Lemma skip_none : forall {A} (o : setopt A), o = None -> skip o = done tt.
Proof. intros A o ->. reflexivity. Qed.

Lemma applies_ok : forall es s, Forall (applies s) es ->
  match s with
  | XConst _ _ _ => exists o, for_const (apply_all es no_opts) = done o
  | XNode _ => exists o, for_node (apply_all es no_opts) = done o
  | XExtConst _ _ => exists o, for_ext_const (apply_all es no_opts) = done o
  | XExtNode _ _ _ => exists o, for_ext_node (apply_all es no_opts) = done o
  end.
Proof.
  intros es [x t v|sn|x t|x i o'] Ap; eexists.
  - unfold for_const.
    rewrite (skip_none (d_trace _)) by unset es Ap. rewrite (skip_none (d_main _)) by unset es Ap.
    rewrite (skip_none (d_trait _)) by unset es Ap. rewrite (skip_none (d_test _)) by unset es Ap.
    rewrite (skip_none (d_generics _)) by unset es Ap. rewrite (skip_none (d_universal _)) by unset es Ap. reflexivity.
  - reflexivity.
  - unfold for_ext_const.
    rewrite (skip_none (d_trace _)) by unset es Ap. rewrite (skip_none (d_export _)) by unset es Ap.
    rewrite (skip_none (d_main _)) by unset es Ap. rewrite (skip_none (d_doc _)) by unset es Ap.
    rewrite (skip_none (d_public _)) by unset es Ap. rewrite (skip_none (d_trait _)) by unset es Ap.
    rewrite (skip_none (d_test _)) by unset es Ap.
    rewrite (skip_none (d_generics _)) by unset es Ap. rewrite (skip_none (d_universal _)) by unset es Ap. reflexivity.
  - unfold for_ext_node.
    rewrite (skip_none (d_export _)) by unset es Ap. rewrite (skip_none (d_doc _)) by unset es Ap.
    rewrite (skip_none (d_public _)) by unset es Ap. rewrite (skip_none (d_trait _)) by unset es Ap.
    rewrite (skip_none (d_test _)) by unset es Ap. rewrite (skip_none (d_universal _)) by unset es Ap. reflexivity.
Qed.

(** ** Programs *)
Lemma perm_forall2 : forall {A B} (R : A -> B -> Prop) a b, Permutation a b -> forall a', Forall2 R a a' ->
  exists b', Permutation a' b' /\ Forall2 R b b'.
Proof.
  induction 1 as [|x l l' H IH|x y l|l l' l'' H1 IH1 H2 IH2]; intros a' F.
  - exists a'. auto.
  - inversion F; subst. destruct (IH _ H4) as (b' & P & G). eexists. split; [apply perm_skip; eauto|constructor; auto].
  - inversion F; subst. inversion H3; subst. eexists. split; [apply perm_swap|]. repeat constructor; auto.
  - destruct (IH1 _ F) as (b & P & G). destruct (IH2 _ G) as (c & Q & K). exists c. split; auto. etransitivity; eauto.
Qed.
Lemma forall2_comp : forall {A B C} (R : A -> B -> Prop) (S : B -> C -> Prop) (T : A -> C -> Prop),
  (forall a b c, R a b -> S b c -> T a c) -> forall l l', Forall2 R l l' -> forall l'', Forall2 S l' l'' -> Forall2 T l l''.
Proof. intros A B C R S T H. induction 1; intros l'' F; inversion F; subst; constructor; eauto. Qed.

Lemma carries_node_eq : forall a o nd nd', attributed a (DNode o nd) -> n_name nd' = n_name nd -> attributed a (DNode o nd').
Proof.
  intros a o nd nd' (es & M & Ap & C) E. exists es. repeat split; auto. inversion C; subst. constructor; auto. congruence.
Qed.

Lemma causality_attributed : forall a d d', attributed a d -> decl_causality d = inl d' -> attributed a d'.
Proof.
  intros a [x t o e|o nd|x t o|x i o' o] d' A H; cbn in H; try (inversion H; subst; auto; fail).
  destruct (node_causality nd) eqn:E; [|discriminate]. inversion H; subst. eapply carries_node_eq; eauto. eapply causality_name; eauto.
Qed.
Lemma typed_attributed : forall a d d', attributed a d -> typed_decl d d' -> attributed a d'.
Proof.
  intros a d d' A H. destruct H as [gl fn o nd nd' gens H|d H]; auto. eapply carries_node_eq; eauto.
  unfold tc_node in H. repeat (apply obind_some in H; destruct H as (?r & ?E & H)). destruct r1 as [ok vars].
  repeat (apply obind_some in H; destruct H as (?r & ?E & H)). inversion H; subst. reflexivity.
Qed.
Lemma clocked_attributed : forall a d d', attributed a d -> result (kc_decl d) = Some d' -> attributed a d'.
Proof.
  intros a [x t o e|o nd|x t o|x i o' o] d' A H; cbn [kc_decl] in H; try (inversion H; subst; auto; fail).
  - apply obind_some in H. destruct H as (nd' & K & H). inversion H; subst. eapply carries_node_eq; eauto.
    unfold kc_node in K. repeat (apply obind_some in K; destruct K as (?r & ?E & K)). inversion K; subst. reflexivity.
  - apply obind_some in H. destruct H as (u & _ & H). inversion H; subst. auto.
Qed.
Lemma positive_attributed : forall a d d', attributed a d -> result (pos_decl d) = Some d' -> attributed a d'.
Proof.
  intros a [x t o e|o nd|x t o|x i o' o] d' A H; cbn [pos_decl] in H; try (inversion H; subst; auto; fail).
  apply obind_some in H. destruct H as (nd' & K & H). inversion H; subst. eapply carries_node_eq; eauto.
  unfold pos_node in K. apply obind_some in K. destruct K as (m & _ & K). inversion K; subst. reflexivity.
Qed.

Theorem program_attributed : forall p l, result (pipeline p) = Some l ->
  exists l', Permutation l l' /\ Forall2 attributed p l'.
Proof.
  intros p l H. destruct (pipeline_inv _ _ H) as (l0 & l1 & l1' & l2 & l3 & F0 & F1 & P & _ & F2 & F3 & F4).
  assert (G : Forall2 attributed p l0) by (clear - F0; induction F0; constructor; auto using tr_attributed).
  assert (G1 : Forall2 attributed p l1) by (exact (forall2_comp _ _ _ causality_attributed _ _ G _ F1)).
  destruct (perm_forall2 _ _ _ P _ F2) as (m2 & P2 & K2). destruct (perm_forall2 _ _ _ P2 _ F3) as (m3 & P3 & K3).
  destruct (perm_forall2 _ _ _ P3 _ F4) as (m4 & P4 & K4). exists m4. split; auto.
  pose proof (forall2_comp _ _ _ typed_attributed _ _ G1 _ K2) as G2.
  pose proof (forall2_comp _ _ _ clocked_attributed _ _ G2 _ K3) as G3.
  exact (forall2_comp _ _ _ positive_attributed _ _ G3 _ K4).
Qed.

Theorem accepted_wellformed : forall p l a s x, result (pipeline p) = Some l -> In (a, s) p -> In x a ->
  exists e, means x e /\ applies s e.
Proof.
  intros p l a s x H I J. destruct (program_attributed _ _ H) as (l' & _ & F).
  destruct (forall2_in_l _ _ _ F _ I) as (d & _ & es & M & Ap & _). cbn in *.
  destruct (forall2_in_l _ _ _ M _ J) as (e & Ie & Me). rewrite Forall_forall in Ap. eauto.
Qed.

(** Attributes that are well formed and applicable do not make a declaration
    be refused. *)
Lemma universal_kept : forall a es, Forall2 means a es ->
  exists es', Forall2 means (filter is_universal a) es' /\ (forall e, In e es' -> In e es /\ e = Universal) /\
    existsb is_univ es' = existsb is_univ es.
Proof.
  induction 1 as [|a e l es M Ms (es' & A & B & C)]; [exists []; repeat split; try constructor; simpl in *; tauto|].
  cbn [filter]. destruct (is_universal a) eqn:U.
  - assert (Ee : e = Universal). { unfold is_universal in U. apply String.eqb_eq in U. destruct M; try discriminate; auto. }
    subst e. exists (Universal :: es'). split; [constructor; auto|]. split; [|reflexivity].
    intros e [<-|I]; simpl; auto. destruct (B _ I); auto.
  - assert (Ue : is_univ e = false) by (destruct M; auto; discriminate).
    exists es'. split; auto. split; [intros e' I; destruct (B _ I); simpl; auto|]. cbn [existsb]. rewrite Ue. auto.
Qed.

Theorem applicable_accepted : forall a s es, Forall2 means a es -> Forall countable es -> Forall (applies s) es ->
  (result (tr_attrdecl (a, s)) = None <-> result (tr_attrdecl (filter is_universal a, s)) = None).
Proof.
  intros a s es M C Ap. destruct (universal_kept _ _ M) as (es' & M' & K & U).
  assert (C' : Forall countable es') by (apply Forall_forall; intros e I; destruct (K _ I) as [_ ->]; exact Logic.I).
  assert (Ap' : Forall (applies s) es') by (rewrite Forall_forall in *; intros e I; apply Ap; apply K; auto).
  unfold tr_attrdecl. cbn [fst snd]. rewrite !result_obind, (means_with_attrs _ _ M C), (means_with_attrs _ _ M' C').
  pose proof (applies_ok _ _ Ap) as O. pose proof (applies_ok _ _ Ap') as O'.
  destruct s as [x t v|sn|x t|x i o']; cbn [tr_decl]; destruct O as (o & O), O' as (o1 & O'); rewrite O, O'.
  - rewrite !result_obind. cbn [done result]. rewrite !result_obind. destruct (result (tr false [] v 0 tst0)) as [[e s]|]; [|tauto].
    destruct (t_stmts s), (t_blocks s); cbn; split; intros; congruence.
  - rewrite !result_obind. cbn [done result]. rewrite !result_obind.
    assert (E : o_universal o = o_universal o1).
    { assert (N : node_options es o) by (apply node_opts_of; rewrite O; auto).
      assert (N' : node_options es' o1) by (apply node_opts_of; rewrite O'; auto).
      pose proof (no_universal _ _ N) as X. pose proof (no_universal _ _ N') as X'.
      assert (Y : In Universal es <-> existsb is_univ es = true) by (symmetry; flagging).
      assert (Y' : In Universal es' <-> existsb is_univ es' = true) by (symmetry; flagging).
      rewrite U in Y'. destruct (o_universal o), (o_universal o1), (existsb is_univ es); try reflexivity; exfalso;
        assert (false = true) by tauto; discriminate. }
    unfold tr_node. rewrite E. rewrite !result_obind. destruct (result (tr_stmts _ _ _ _)); cbn; split; intros; congruence.
  - cbn. split; intros; congruence.
  - cbn. split; intros; congruence.
Qed.

Lemma f2_length : forall {A B} (R : A -> B -> Prop) l l', Forall2 R l l' -> length l = length l'.
Proof. induction 1; cbn; congruence. Qed.
Lemma app_same_length : forall {A} (a b c d : list A), length a = length b -> b ++ d = a ++ c -> a = b /\ c = d.
Proof. induction a; intros [|y b] c d L E; try discriminate; cbn in *; auto. inversion L. inversion E; subst. destruct (IHa b c d); subst; auto. Qed.

(** ** Warnings *)
Definition held (d : decl_opts) (e : effect) : bool :=
  match e with
  | Trace _ => is_set (d_trace d) | Export => is_set (d_export d) | Public => is_set (d_public d) | Trait => is_set (d_trait d)
  | Universal => is_set (d_universal d) | Main _ => is_set (d_main d) | Test _ => is_set (d_test d)
  | Allow _ => is_set (d_allow d) | Doc _ => is_set (d_doc d) | Generic _ => is_set (d_generics d)
  end.
Lemma apply_held : forall e d, held (apply e d) e = true.
Proof. intros e [tr ex pu ma te al do ti ge un]. destruct e; cbn; auto; [destruct al|destruct do|destruct ge]; auto. Qed.
Lemma apply_keeps : forall e e' d, held d e = true -> held (apply e' d) e = true.
Proof.
  intros e e' [tr ex pu ma te al do ti ge un]. destruct e, e'; cbn; auto; [destruct al|destruct do|destruct ge]; auto.
Qed.
Lemma public_exports : forall es d, held d Public = true -> held d Export = true -> held (apply_all es d) Export = true.
Proof. unfold apply_all. induction es as [|e es IH]; intros d P E; simpl; auto. apply IH; apply apply_keeps; auto. Qed.
Lemma all_keeps : forall es e d, held d e = true -> held (apply_all es d) e = true.
Proof. unfold apply_all. induction es as [|e' es IH]; intros e d H; simpl; auto. apply IH. apply apply_keeps. auto. Qed.

(** What the warnings of one attribute depend on. *)
Definition loud (d : decl_opts) (a : attribute) (e : effect) : bool :=
  match e with
  | Trace _ | Trait | Universal => held d e
  | Export => held d (Test 0) || held d Export
  | Public => held d (Test 0) || held d Public || held d Export
  | Main _ => held d (Test 0) || held d (Main 0)
  | Test _ => held d (Main 0) || held d (Test 0) || (match a_targets a with [] => held d Public || held d Export | _ => false end)
  | _ => false
  end.
Lemma with_attr_loud : forall a e, means a e -> countable e -> forall d,
  warned (with_attr d a) = [] <-> loud d a e = false.
Proof.
  intros a e M C d. destruct d as [tr ex pu ma te al do ti ge un].
  destruct M as [ps ts de f Hd Hf| | | | | |n| |n|x|x|s|l N1 N2 N3 N4];
    cbn [with_attr a_action a_params a_targets String.eqb Ascii.eqb Bool.eqb].
  - destruct Hd, Hf, tr; cbn; split; intros; congruence.
  - unfold conflicting, duplicate. destruct te, ex; cbn; split; intros; congruence.
  - unfold conflicting, duplicate. destruct te, ex, pu; cbn; split; intros; congruence.
  - unfold duplicate. destruct ti; cbn; split; intros; congruence.
  - unfold duplicate. destruct un; cbn; split; intros; congruence.
  - unfold conflicting, duplicate. destruct te, ma; cbn; split; intros; congruence.
  - assert (E : is_usize n = true) by (cbn in C; unfold is_usize; lia). unfold conflicting, duplicate. rewrite E. destruct te, ma; cbn; split; intros; congruence.
  - unfold conflicting, duplicate. destruct te, ma, ex, pu; cbn; split; intros; congruence.
  - assert (E : is_usize n = true) by (cbn in C; unfold is_usize; lia). unfold conflicting, duplicate. rewrite E. destruct te, ma; cbn; split; intros; congruence.
  - cbn. tauto.
  - cbn. tauto.
  - cbn. tauto.
  - destruct (check_generics_tt l []) as [F|F]; [|rewrite F; cbn; tauto].
    exfalso. assert (K : result (check_generics [] l) <> None); [|tauto]. apply check_generics_ok. repeat split; auto.
Qed.

Lemma with_attrs_warned : forall l es, Forall2 means l es -> Forall countable es -> forall d,
  warned (with_attrs d l) = [] <-> (forall l1 a l2 e1 e e2, l = l1 ++ a :: l2 -> es = e1 ++ e :: e2 -> length l1 = length e1 ->
     loud (apply_all e1 d) a e = false).
Proof.
  induction 1 as [|a e l es M Ms IH]; intros C d; cbn [with_attrs].
  - split; auto. intros _ l1 a l2 e1 e e2 E. destruct l1; discriminate.
  - inversion C; subst. pose proof (means_with_attr _ _ M H1 d) as R.
    pose proof (means_with_attrs _ _ Ms H2 (apply e d)) as R'. rewrite (warned_app _ _ _ _ R R').
    pose proof (with_attr_loud _ _ M H1 d) as L. specialize (IH H2 (apply e d)). split.
    + intros W l1 a' l2 e1 e' e2 E E' Ln. apply app_eq_nil in W. destruct W as [W1 W2].
      destruct l1 as [|b l1], e1 as [|f e1]; try discriminate; cbn in E, E'; inversion E; inversion E'; subst; [apply L; auto|].
      apply (proj1 IH W2 l1 a' l2 e1 e' e2); auto.
    + intros H. rewrite (proj2 L), (proj2 IH); auto.
      * intros l1 a' l2 e1 e' e2 -> -> Ln. apply (H (a :: l1) a' l2 (e :: e1) e' e2); cbn; auto.
      * apply (H [] a l [] e es); auto.
Qed.

(** A clash with an earlier attribute is reported, but for [test(n)] after
    [export] or [pub]. *)
Lemma clash_loud : forall d e1 a e2, held d e1 = true -> (e1 = Public -> held d Export = true) -> means a e2 -> clash e1 e2 ->
  ~ (test_with_count a /\ (e1 = Export \/ e1 = Public)) -> loud d a e2 = true.
Proof.
  intros d e1 a e2 H P M C N.
  assert (T : test_with_count a \/ (is_test e2 = true -> a_targets a = [])).
  { destruct M; try (right; cbn; intros; discriminate); try (right; reflexivity). left. split; cbn; auto. discriminate. }
  destruct C as [e e' S O| | |e e' A B|e e' A B].
  - destruct e, e'; try discriminate; cbn in *; rewrite ?H, ?orb_true_r; auto.
  - cbn in *. rewrite H. rewrite ?orb_true_r. auto.
  - cbn in *. rewrite P; auto. rewrite ?orb_true_r. auto.
  - destruct e, e'; try discriminate; cbn in *; rewrite ?H, ?orb_true_r; auto.
  - destruct e', e; try discriminate; cbn in *; rewrite ?H, ?orb_true_r; auto;
      (destruct T as [T|T]; [exfalso; apply N; auto|rewrite T; auto; rewrite ?orb_true_r; auto]).
Qed.

Theorem clash_reported : forall p l ws es, pipeline p = Out (Some l) es ws ->
  forall a s, In (a, s) p -> forall b1 a1 b2 a2 b3 e1 e2, a = b1 ++ a1 :: b2 ++ a2 :: b3 -> means a1 e1 -> means a2 e2 -> clash e1 e2 ->
  ~ (test_with_count a2 /\ (e1 = Export \/ e1 = Public)) -> ws <> [].
Proof.
  intros p l ws es H a s I b1 a1 b2 a2 b3 e1 e2 -> M1 M2 Cl N W.
  rewrite (program_warnings _ _ _ _ H) in W.
  assert (R : result (pipeline p) = Some l) by (rewrite H; auto).
  destruct (pipeline_inv _ _ R) as (l0 & _ & _ & _ & _ & F0 & _).
  destruct (forall2_in_l _ _ _ F0 _ I) as (d & _ & T). unfold tr_attrdecl in T. cbn [fst snd] in T. apply obind_some in T.
  destruct T as (o & T & _). apply with_attrs_means in T. destruct T as (fs & Ms & Cs & _).
  assert (W' : warned (with_attrs no_opts (b1 ++ a1 :: b2 ++ a2 :: b3)) = []).
  { clear - W I. induction p as [|x p IH]; [destruct I|]. cbn [flat_map] in W. apply app_eq_nil in W. destruct W as [W1 W2].
    destruct I as [->|I]; auto. }
  pose proof (proj1 (with_attrs_warned _ _ Ms Cs no_opts) W') as L.
  apply Forall2_app_inv_l in Ms. destruct Ms as (f1 & r1 & Ms1 & Ms' & ->).
  inversion Ms' as [|x1 g1 y1 r2 N1 Ms2 E1 E2]; subst. apply Forall2_app_inv_l in Ms2. destruct Ms2 as (f2 & r3 & Ms2 & Ms3 & ->).
  inversion Ms3 as [|x2 g2 y2 r4 N2 Ms4 E1 E2]; subst.
  rewrite (means_det _ _ _ N1 M1) in *. rewrite (means_det _ _ _ N2 M2) in *.
  specialize (L (b1 ++ a1 :: b2) a2 b3 (f1 ++ e1 :: f2) e2 r4).
  rewrite <- !app_assoc in L. cbn [app] in L. specialize (L eq_refl eq_refl).
  assert (Ln : length (b1 ++ a1 :: b2) = length (f1 ++ e1 :: f2)).
  { rewrite !app_length. cbn. rewrite (f2_length _ _ _ Ms1), (f2_length _ _ _ Ms2). auto. }
  specialize (L Ln). rewrite (clash_loud _ e1 a2 e2) in L; [discriminate| | |auto|auto|auto].
  - unfold apply_all. rewrite fold_left_app. cbn [fold_left]. apply all_keeps. apply apply_held.
  - intros ->. unfold apply_all. rewrite fold_left_app. cbn [fold_left]. apply all_keeps. destruct (fold_left _ _ _). reflexivity.
Qed.

(** Without a clash there is no warning. *)
Lemma held_from : forall es e, held (apply_all es no_opts) e = true ->
  exists e', In e' es /\ (option_of e' = option_of e \/ (e = Export /\ e' = Public)).
Proof.
  intros es e. assert (G : forall d, held (apply_all es d) e = true -> held d e = true \/
    exists e', In e' es /\ (option_of e' = option_of e \/ (e = Export /\ e' = Public))).
  { unfold apply_all. induction es as [|e0 es IH]; intros d H; simpl in *; auto. apply IH in H. destruct H as [H|(e' & I & K)]; [|eauto].
    destruct d as [tr ex pu ma te al do ti ge un]. destruct e, e0; cbn in *; auto; right; eexists; split; eauto; cbn; auto. }
  intros H. apply G in H. destruct H as [H|H]; auto. destruct e; discriminate.
Qed.

Lemma loud_clash : forall es a e, means a e -> loud (apply_all es no_opts) a e = true -> exists e', In e' es /\ clash e' e.
Proof.
  intros es a e M H.
  destruct e; cbn [loud] in H; rewrite ?orb_true_iff in H; try discriminate.
  - apply held_from in H; destruct H as (e' & I & [K|[K E]]); try discriminate; exists e'; split; auto; destruct e'; try discriminate. apply clash_same; auto.
  - destruct H as [H|H]; apply held_from in H; destruct H as (e' & I & [K|[K E]]); try discriminate; exists e'; split; auto; destruct e'; try discriminate.
    + apply clash_test; auto.
    + apply clash_same; auto.
    + apply clash_pub_export.
  - destruct H as [[H|H]|H]; apply held_from in H; destruct H as (e' & I & [K|[K E]]); try discriminate; exists e'; split; auto; destruct e'; try discriminate.
    + apply clash_test; auto.
    + apply clash_same; auto.
    + apply clash_export_pub.
    + apply clash_same; auto.
  - apply held_from in H; destruct H as (e' & I & [K|[K E]]); try discriminate; exists e'; split; auto; destruct e'; try discriminate. apply clash_same; auto.
  - apply held_from in H; destruct H as (e' & I & [K|[K E]]); try discriminate; exists e'; split; auto; destruct e'; try discriminate. apply clash_same; auto.
  - destruct H as [H|H]; apply held_from in H; destruct H as (e' & I & [K|[K E]]); try discriminate; exists e'; split; auto; destruct e'; try discriminate.
    + apply clash_test; auto.
    + apply clash_same; auto.
  - destruct H as [[H|H]|H]; [| |destruct (a_targets a); [|discriminate]; rewrite orb_true_iff in H; destruct H as [H|H]];
      apply held_from in H; destruct H as (e' & I & [K|[K E]]); try discriminate; exists e'; split; auto; destruct e'; try discriminate;
      try (apply clash_with_test; reflexivity). apply clash_same; auto.
Qed.

Theorem no_clash_silent : forall p l ws es, pipeline p = Out (Some l) es ws ->
  (forall a s, In (a, s) p -> forall b1 a1 b2 a2 b3 e1 e2, a = b1 ++ a1 :: b2 ++ a2 :: b3 -> means a1 e1 -> means a2 e2 -> ~ clash e1 e2) ->
  ws = [].
Proof.
  intros p l ws es H N. rewrite (program_warnings _ _ _ _ H).
  assert (R : result (pipeline p) = Some l) by (rewrite H; auto).
  destruct (pipeline_inv _ _ R) as (l0 & _ & _ & _ & _ & F0 & _). clear - F0 N.
  induction F0 as [|[a s] d p l0 T F0 IH]; auto. cbn [flat_map fst]. rewrite IH by (intros a' s' I; apply (N a' s'); simpl; auto).
  rewrite app_nil_r. specialize (N a s (or_introl eq_refl)). unfold tr_attrdecl in T. cbn [fst snd] in T. apply obind_some in T.
  destruct T as (o & T & _). apply with_attrs_means in T. destruct T as (fs & Ms & Cs & _).
  apply (with_attrs_warned _ _ Ms Cs no_opts). intros l1 a2 l2 f1 e2 f2 -> -> Ln.
  apply Forall2_app_inv_l in Ms. destruct Ms as (g1 & r1 & Ms1 & Ms' & E).
  assert (Eg : g1 = f1 /\ r1 = e2 :: f2).
  { apply app_same_length; [|auto]. rewrite <- (f2_length _ _ _ Ms1). auto. }
  destruct Eg as [-> ->]. inversion Ms'; subst.
  destruct (loud (apply_all f1 no_opts) a2 e2) eqn:L; auto. exfalso.
  apply loud_clash in L; auto. destruct L as (e1 & I & Cl).
  apply in_split in I. destruct I as (h1 & h2 & ->). apply Forall2_app_inv_r in Ms1. destruct Ms1 as (k1 & k2 & A & B & ->).
  inversion B as [|a1 x k3 y M1 M2]; subst. apply (N k1 a1 k3 a2 l2 e1 e2); auto. rewrite <- app_assoc. reflexivity.
Qed.
