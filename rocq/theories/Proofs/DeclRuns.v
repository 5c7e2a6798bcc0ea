(** * The order in which the nodes are listed does not change what they do. *)
From Coq Require Import String List ZArith Bool Arith Lia Permutation.
From Verif Require Import Model.Base Model.Scalar Model.Value Model.Register Model.Ast Model.Errors Model.Interp Model.Options Model.Surface Model.Translate
  Model.Graph Model.Causality Model.Typecheck Model.Clockcheck Model.Positivity Model.Pipeline Spec.BehaviourSpec
  Proofs.OutBasics Proofs.AstInd Proofs.ExternBasics Proofs.CausalityProofs Proofs.PipelineProofs Proofs.TypePipeline Proofs.DeclOrder.
Import ListNotations.

(** Nodes only call nodes after them in the list. *)
Definition ranked (p : prog) : Prop :=
  forall a nd b, p = a ++ nd :: b -> forall g, In g (n_blocks nd) -> ~ In g (map n_name (a ++ [nd])).

Lemma find_split : forall p f nd r, find_node p f = Some (nd, r) ->
  exists a, p = a ++ nd :: r /\ n_name nd = f /\ ~ In f (map n_name a).
Proof.
  induction p as [|n p IH]; intros f nd r H; cbn in H; [discriminate|]. destruct (String.eqb_spec f (n_name n)).
  - inversion H; subst. exists []. cbn. auto.
  - destruct (IH _ _ _ H) as (a & -> & E & J). exists (n :: a). cbn. split; auto. split; auto. intros [K|K]; auto.
Qed.
Lemma find_none : forall p f, find_node p f = None <-> ~ In f (map n_name p).
Proof.
  induction p as [|n p IH]; intros f; cbn; [tauto|]. destruct (String.eqb_spec f (n_name n)); [|rewrite IH]; split; intros H; try discriminate.
  - exfalso. apply H. auto.
  - intros [K|K]; auto.
  - auto.
Qed.
Lemma skip_find : forall a p f, ~ In f (map n_name a) -> find_node (a ++ p) f = find_node p f.
Proof.
  induction a as [|n a IH]; intros p f H; cbn; auto. destruct (String.eqb_spec f (n_name n)); [exfalso; apply H; cbn; auto|]. apply IH. intros K. apply H. cbn. auto.
Qed.
Lemma skip_step : forall mode glob a p f i v, ~ In f (map n_name a) -> step mode glob (a ++ p) f i v = step mode glob p f i v.
Proof.
  induction a as [|n a IH]; intros p f i v H; cbn; auto. destruct (String.eqb_spec f (n_name n)); [exfalso; apply H; cbn; auto|]. apply IH. intros K. apply H. cbn. auto.
Qed.
Lemma skip_init : forall a p f, ~ In f (map n_name a) -> init_inst (a ++ p) f = init_inst p f.
Proof.
  induction a as [|n a IH]; intros p f H; cbn; auto. destruct (String.eqb_spec f (n_name n)); [exfalso; apply H; cbn; auto|]. apply IH. intros K. apply H. cbn. auto.
Qed.
Lemma missing_step : forall mode glob p f i v, ~ In f (map n_name p) -> step mode glob p f i v = Panic PType.
Proof. intros. rewrite <- (app_nil_r p), skip_step; auto. Qed.
Lemma missing_init : forall p f, ~ In f (map n_name p) -> init_inst p f = Panic PType.
Proof. intros. rewrite <- (app_nil_r p), skip_init; auto. Qed.

Lemma head_step : forall mode glob p f nd r i v, ranked p -> find_node p f = Some (nd, r) ->
  step mode glob p f i v = node_step mode glob
     (fun id i v => match nth_error (n_blocks nd) id with Some g => step mode glob p g i v | None => Panic PType end)
     (fun id => g <- of_option PType (nth_error (n_blocks nd) id);; nil_outputs p g) nd i v.
Proof.
  intros mode glob p f nd r i v R H. destruct (find_split _ _ _ _ H) as (a & E & Nm & J).
  rewrite E at 1. rewrite skip_step by auto. cbn [step]. rewrite Nm, String.eqb_refl.
  assert (K : forall id g, nth_error (n_blocks nd) id = Some g -> ~ In g (map n_name (a ++ [nd]))) by (intros id g Hg; eapply R; [exact E|eapply nth_error_In; eauto]).
  assert (Ep : p = (a ++ [nd]) ++ r) by (rewrite <- app_assoc; exact E).
  apply node_step_ext.
  - intros id i' v'. destruct (nth_error (n_blocks nd) id) as [g|] eqn:G; auto. rewrite Ep, skip_step; eauto.
  - intros id. destruct (nth_error (n_blocks nd) id) as [g|] eqn:G; cbn [of_option bind]; auto. unfold nil_outputs. rewrite Ep, skip_find; eauto.
Qed.
Lemma mapM_ext : forall {A B} (f g : A -> res B) l, (forall a, In a l -> f a = g a) -> mapM f l = mapM g l.
Proof. induction l as [|a l IH]; intros H; cbn; auto. rewrite H, IH by (intros; try apply H; cbn; auto). auto. Qed.
Lemma head_init : forall p f nd r, ranked p -> find_node p f = Some (nd, r) ->
  init_inst p f = (regs <- mapM (fun t => t <- of_option PType t;; Ok (reg_default (ty_shape t))) (n_regs nd);;
        subs <- mapM (init_inst p) (n_blocks nd);;
        Ok (Inst 0 (init_hists nd) regs (repeat flip_default (n_flips nd)) subs)).
Proof.
  intros p f nd r R H. destruct (find_split _ _ _ _ H) as (a & E & Nm & J).
  rewrite E at 1. rewrite skip_init by auto. cbn [init_inst]. rewrite Nm, String.eqb_refl. destruct (mapM _ (n_regs nd)); cbn [bind]; auto.
  rewrite (mapM_ext (init_inst r) (init_inst p)); auto. intros g Hg. rewrite E. replace (a ++ nd :: r) with ((a ++ [nd]) ++ r) by (rewrite <- app_assoc; auto).
  rewrite skip_init; auto. eapply R; eauto.
Qed.

Section Perm.
  Variables p q : prog.
  Hypothesis P : Permutation p q.
  Hypothesis D : NoDup (map n_name p).
  Hypothesis Rp : ranked p.
  Hypothesis Rq : ranked q.

  Lemma same_find : forall f nd r, find_node p f = Some (nd, r) -> exists r', find_node q f = Some (nd, r').
  Proof.
    intros f nd r H. destruct (find_split _ _ _ _ H) as (a & E & Nm & J).
    destruct (find_node q f) as [[nd' r']|] eqn:F.
    - destruct (find_split _ _ _ _ F) as (a' & E' & Nm' & J'). exists r'. f_equal. f_equal.
      assert (I : In nd p) by (rewrite E; apply in_app_iff; cbn; auto).
      assert (I' : In nd' p) by (eapply Permutation_in; [apply Permutation_sym, P|]; rewrite E'; apply in_app_iff; cbn; auto).
      clear -D I I' Nm Nm'. assert (Q : n_name nd = n_name nd') by congruence. clear Nm Nm'.
      induction p as [|n l IH]; [destruct I|]. cbn in D. inversion D; subst.
      destruct I as [->|I], I' as [->|I']; auto.
      + exfalso. apply H1. rewrite Q. apply in_map. auto.
      + exfalso. apply H1. rewrite <- Q. apply in_map. auto.
    - exfalso. apply find_none in F. apply F. eapply Permutation_in; [apply Permutation_map, P|]. rewrite <- Nm. apply in_map. rewrite E. apply in_app_iff. cbn. auto.
  Qed.
  Lemma same_names : forall f, In f (map n_name p) <-> In f (map n_name q).
  Proof. intros. split; apply Permutation_in, Permutation_map; auto using Permutation_sym. Qed.
  Lemma same_nil : forall f, nil_outputs p f = nil_outputs q f.
  Proof.
    intros f. unfold nil_outputs. destruct (find_node p f) as [[nd r]|] eqn:F.
    - destruct (same_find _ _ _ F) as (r' & F'). rewrite F'. auto.
    - apply find_none in F. assert (F' : find_node q f = None) by (apply find_none; rewrite <- same_names; auto). rewrite F'. auto.
  Qed.
  Lemma position : forall f nd r g, find_node p f = Some (nd, r) -> In g (n_blocks nd) -> forall nd' r', find_node p g = Some (nd', r') -> length r' < length r.
  Proof.
    intros f nd r g F G nd' r' F'. destruct (find_split _ _ _ _ F) as (a & E & Nm & J).
    pose proof (Rp _ _ _ E _ G) as K. rewrite E in F'. replace (a ++ nd :: r) with ((a ++ [nd]) ++ r) in F' by (rewrite <- app_assoc; auto).
    rewrite skip_find in F' by auto. destruct (find_split _ _ _ _ F') as (b & Eb & _). rewrite Eb, app_length. cbn. lia.
  Qed.
  Lemma same_step : forall mode glob f i v, step mode glob p f i v = step mode glob q f i v.
  Proof.
    intros mode glob.
    assert (X : forall n f, (forall nd r, find_node p f = Some (nd, r) -> length r < n) -> forall i v, step mode glob p f i v = step mode glob q f i v).
    { induction n as [|n IH]; intros f L i v.
      - assert (F : find_node p f = None) by (destruct (find_node p f) as [[nd r]|]; auto; specialize (L _ _ eq_refl); lia).
        apply find_none in F. rewrite !missing_step; auto. rewrite <- same_names. auto.
      - destruct (find_node p f) as [[nd r]|] eqn:F.
        + destruct (same_find _ _ _ F) as (r' & F'). rewrite (head_step _ _ _ _ _ _ _ _ Rp F), (head_step _ _ _ _ _ _ _ _ Rq F').
          apply node_step_ext.
          * intros id i' v'. destruct (nth_error (n_blocks nd) id) as [g|] eqn:G; auto. apply IH. intros nd' s Fg.
            pose proof (position _ _ _ _ F (nth_error_In _ _ G) _ _ Fg). specialize (L _ _ eq_refl). lia.
          * intros id. destruct (nth_error (n_blocks nd) id) as [g|] eqn:G; cbn [of_option bind]; auto using same_nil.
        + apply find_none in F. rewrite !missing_step; auto. rewrite <- same_names. auto. }
    intros f. apply (X (S (match find_node p f with Some (_, r) => length r | None => 0 end))). intros nd r F. rewrite F. lia.
  Qed.
  Lemma same_init : forall f, init_inst p f = init_inst q f.
  Proof.
    assert (X : forall n f, (forall nd r, find_node p f = Some (nd, r) -> length r < n) -> init_inst p f = init_inst q f).
    { induction n as [|n IH]; intros f L.
      - assert (F : find_node p f = None) by (destruct (find_node p f) as [[nd r]|]; auto; specialize (L _ _ eq_refl); lia).
        apply find_none in F. rewrite !missing_init; auto. rewrite <- same_names. auto.
      - destruct (find_node p f) as [[nd r]|] eqn:F.
        + destruct (same_find _ _ _ F) as (r' & F'). rewrite (head_init _ _ _ _ Rp F), (head_init _ _ _ _ Rq F').
          rewrite (mapM_ext (init_inst p) (init_inst q)); auto. intros g G. apply IH. intros nd' s Fg.
          pose proof (position _ _ _ _ F G _ _ Fg). specialize (L _ _ eq_refl). lia.
        + apply find_none in F. rewrite !missing_init; auto. rewrite <- same_names. auto. }
    intros f. apply (X (S (match find_node p f with Some (_, r) => length r | None => 0 end))). intros nd r F. rewrite F. lia.
  Qed.
  Lemma same_run : forall mode glob f ins i, run mode glob p f i ins = run mode glob q f i ins.
  Proof.
    intros mode glob f. induction ins as [|v ins IH]; intros i; cbn [run]; auto. rewrite same_step. destruct (step _ _ q f i v) as [[o i']|]; cbn [bind]; auto. rewrite IH. auto.
  Qed.
  Lemma same_main : forall mode glob f n fuel, main_fn mode glob p f n fuel = main_fn mode glob q f n fuel.
  Proof.
    intros mode glob f n fuel.
    assert (B : forall i, main_body mode glob p f i = main_body mode glob q f i) by (intros; unfold main_body; rewrite same_step; auto).
    assert (F : forall n i, main_for mode glob p f n i = main_for mode glob q f n i).
    { induction n0 as [|k IH]; intros i; cbn; auto. rewrite B. destruct (main_body _ _ q f i); cbn; auto. }
    assert (G : forall n i, main_forever mode glob p f n i = main_forever mode glob q f n i).
    { induction n0 as [|k IH]; intros i; cbn; auto. rewrite B. destruct (main_body _ _ q f i); cbn; auto. }
    unfold main_fn. rewrite same_init. destruct (init_inst q f); auto. rewrite F, G. auto.
  Qed.
End Perm.

(** ** Accepted programs are in this order *)
Definition called (d : decl) : list (ident * list ident) :=
  match d with DNode _ nd => [(n_name nd, n_blocks nd)] | _ => [] end.

Lemma called_nodes : forall l, map (fun nd => (n_name nd, n_blocks nd)) (nodes_of l) = rev (flat_map called l).
Proof.
  intros l. unfold nodes_of. rewrite map_rev. f_equal. induction l as [|d l IH]; auto. cbn [flat_map]. rewrite map_app, IH. destruct d; auto.
Qed.
Lemma ranked_called : forall p, (forall a f bs b, map (fun nd => (n_name nd, n_blocks nd)) p = a ++ (f, bs) :: b -> forall g, In g bs -> ~ In g (f :: map fst a)) -> ranked p.
Proof.
  intros p H a nd b E g G J. apply (H (map (fun nd => (n_name nd, n_blocks nd)) a) (n_name nd) (n_blocks nd) (map (fun nd => (n_name nd, n_blocks nd)) b)) with (g := g); auto.
  - rewrite E, map_app. reflexivity.
  - rewrite map_map. cbn [fst]. rewrite map_app in J. apply in_app_iff in J. destruct J as [J|[J|[]]]; cbn; auto.
Qed.
Lemma flat_map_split : forall {A B} (f : A -> list B) (l : list A) a x b, (forall y, length (f y) <= 1) -> flat_map f l = a ++ x :: b ->
  exists l1 y l2, l = l1 ++ y :: l2 /\ f y = [x] /\ flat_map f l1 = a /\ flat_map f l2 = b.
Proof.
  intros A B f. induction l as [|y l IH]; intros a x b L E; cbn in E; [destruct a; discriminate|].
  pose proof (L y) as Ly. destruct (f y) as [|z [|w r]] eqn:F; cbn in Ly; try lia.
  - cbn in E. destruct (IH _ _ _ L E) as (l1 & y' & l2 & -> & X & Y & Z). exists (y :: l1), y', l2. cbn. rewrite F. auto.
  - cbn in E. destruct a as [|z' a]; inversion E; subst.
    + exists [], y, l. auto.
    + destruct (IH _ _ _ L H1) as (l1 & y' & l2 & -> & X & Y & Z). exists (y :: l1), y', l2. cbn. rewrite F, Y. auto.
Qed.
Lemma sorted_ranked : forall l l', sorted l -> flat_map called l' = flat_map called l -> ranked (nodes_of l').
Proof.
  intros l l' S E. apply ranked_called. intros a f bs b H g G J. rewrite called_nodes, E in H.
  assert (H' : flat_map called l = rev b ++ (f, bs) :: rev a).
  { rewrite <- (rev_involutive (flat_map called l)), H, rev_app_distr. cbn. rewrite <- app_assoc. reflexivity. }
  apply flat_map_split in H'; [|intros d; destruct d; cbn; lia]. destruct H' as (l1 & d & l2 & El & Ed & _ & E2).
  destruct d as [|o nd| |]; cbn in Ed; try discriminate. inversion Ed; subst f bs.
  apply (S l1 (DNode o nd) l2 El (RFun g)).
  - cbn [decl_requires]. apply in_app_iff. left. apply in_map. auto.
  - cbn [flat_map decl_provides app]. destruct J as [J|J]; [left; congruence|right].
    apply in_map_iff in J. destruct J as ((x, bs) & <- & J). apply in_rev in J. rewrite <- E2 in J. apply in_flat_map in J. destruct J as (d & J & K).
    apply in_flat_map. exists d. split; auto. destruct d; cbn in *; try tauto. destruct K as [K|[]]. inversion K; subst. auto.
Qed.
Lemma accepted_ranked : forall p l, result (pipeline p) = Some l -> ranked (nodes_of l) /\ NoDup (map n_name (nodes_of l)).
Proof.
  intros p l H. destruct (pipeline_inv _ _ H) as (l0 & l1 & l1' & l2 & l3 & F0 & F1 & P & C & F2 & F3 & F4).
  assert (E : flat_map called l = flat_map called l1').
  { transitivity (flat_map called l3); [symmetry; eapply forall2_flat_eq; [exact F4|]|
      transitivity (flat_map called l2); [symmetry; eapply forall2_flat_eq; [exact F3|]|symmetry; eapply forall2_flat_eq; [exact F2|]]].
    - intros d d' X. destruct d; cbn [pos_decl] in X; try (inversion X; auto; fail). apply obind_some in X. destruct X as (nd' & K & X). inversion X; subst.
      unfold pos_node in K. apply obind_some in K. destruct K as (m & _ & K). inversion K. reflexivity.
    - intros d d' X. destruct d; cbn [kc_decl] in X; try (inversion X; auto; fail); apply obind_some in X; destruct X as (nd' & K & X); inversion X; subst; auto.
      unfold kc_node in K. inv_out. reflexivity.
    - intros d d' X. inversion X as [gl fn o nd nd' gens T|]; subst; auto. unfold tc_node in T. inv_out. reflexivity. }
  unfold prog_causality in C. destruct (decls_causality l0) as [m|]; [|discriminate]. destruct (schedule_sorted _ _ C) as [S N]. split.
  - eapply sorted_ranked; eauto.
  - assert (X : map n_name (nodes_of l) = rev (map fst (flat_map called l))).
    { rewrite <- map_rev, <- called_nodes, map_map. reflexivity. }
    rewrite X, E. apply NoDup_rev. apply provides_names in N. replace (map fst (flat_map called l1')) with (dnames l1'); auto.
    clear. induction l1' as [|d l IH]; auto. cbn. rewrite map_app, <- IH. destruct d; auto.
Qed.
Lemma nodes_perm : forall l l', Permutation l l' -> Permutation (nodes_of l) (nodes_of l').
Proof.
  intros l l' H. unfold nodes_of. rewrite <- !Permutation_rev. apply Permutation_flat_map. auto.
Qed.

Theorem order_irrelevant : forall p p' l, Permutation p p' -> result (pipeline p) = Some l ->
  exists l', result (pipeline p') = Some l' /\ Permutation l l' /\ same_behaviour (nodes_of l) (nodes_of l').
Proof.
  intros p p' l P H. destruct (declarations_permuted _ _ _ P H) as (l' & H' & Pl). exists l'. split; auto. split; auto.
  destruct (accepted_ranked _ _ H) as [R N], (accepted_ranked _ _ H') as [R' _]. pose proof (nodes_perm _ _ Pl) as Pn.
  split; [|split; [|split]]; intros.
  - apply same_init; auto.
  - apply same_step; auto.
  - apply same_run; auto.
  - apply same_main; auto.
Qed.
