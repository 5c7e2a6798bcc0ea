(** The depth check of a node. *)
From Coq Require Import String List ZArith Bool Arith Lia Permutation.
From Verif Require Import Model.Base Model.Scalar Model.Value Model.Ast Model.Errors Model.Interp Model.Options Model.Surface Model.Translate
  Model.Causality Model.Typecheck Model.Clockcheck Model.Positivity Spec.ProgramSem Spec.TranslateSpec Spec.ClockSpec Spec.SourceCausal Spec.Static
  Proofs.AstInd Proofs.OutBasics Proofs.TranslateSem Proofs.TranslateStruct Proofs.NodeWf Proofs.CausalityProofs Proofs.PipelineProofs Proofs.ProgramProofs
  Proofs.Positive.
Import ListNotations.

Section Covered.
  Variable locals : list ident.
  Definition covering (e : sexpr) : Prop := forall s e' s', result (tr true locals e 0 s) = Some (e', s') -> forall cur, fits e' cur (covered cur e).

  Lemma cover_elems : forall l, Forall covering l -> forall s es s', result (tr_elems (tr true locals) l 0 s) = Some (es, s') ->
    forall cur, Forall2 (fun e' P => fits e' cur P) es (map (covered cur) l).
  Proof. induction 1 as [|e l H _ IH]; intros s es s' E cur; cbn in E; inv_out; constructor; eauto. Qed.
  Lemma cover_paren : forall l es b cur, Forall2 (fun e' P => fits e' cur P) es (map (covered cur) l) -> fits (paren es b) cur (all_of (covered cur) l).
  Proof.
    intros l es b cur H. assert (T : fits (ETuple es) cur (all_of (covered cur) l)).
    { intros m. rewrite pos_tuple, all_of_iff, (poss_fits _ _ _ H), Forall_map. reflexivity. }
    unfold paren. destruct es as [|e [|e' es]]; auto. destruct b; auto. destruct l as [|x [|y l]]; inversion H as [|? ? ? ? A B]; subst; inversion B; subst.
    intros m. cbn [Positivity.pos all_of]. rewrite (A m). tauto.
  Qed.
  Lemma cover_bins : forall O (compose : O -> expr -> expr -> expr),
    (forall op a b cur P Q, fits a cur P -> fits b cur Q -> fits (compose op a b) cur (P /\ Q)) ->
    forall l, Forall (fun p => covering (snd p)) l -> forall acc s r s', result (tr_left (tr true locals) compose acc l 0 s) = Some (r, s') ->
    forall cur P, fits acc cur P -> fits r cur (P /\ all_of (fun p => covered cur (snd p)) l).
  Proof.
    intros O compose C. induction 1 as [|[op e] l H _ IH]; intros acc s r s' E cur P A; cbn in E.
    - inv_out. eapply fits_same; [exact A|]. cbn. tauto.
    - apply obind_some in E. destruct E as ((e1, s1) & E1 & E). cbn [snd] in H.
      pose proof (IH _ _ _ _ E cur _ (C op _ _ _ _ _ A (H _ _ _ E1 cur))) as X. eapply fits_same; [exact X|]. cbn [all_of snd]. tauto.
  Qed.
  Lemma fits_two : forall e a b cur P Q, (forall m, Positivity.pos e cur m = (m <~ Positivity.pos a cur m;; Positivity.pos b cur m)) -> fits a cur P -> fits b cur Q -> fits e cur (P /\ Q).
  Proof. intros e a b cur P Q E A B m. rewrite E. apply (fits_seq _ _ P Q A B). Qed.

  Lemma cover_right : forall compose (W : nat -> sexpr -> list sexpr -> Prop),
    (forall cur e, W cur e [] <-> covered cur e) ->
    (forall d i a b s cur e x l, fits a cur (covered cur e) -> (forall cur, fits b cur (W cur x l)) -> fits (fst (compose d i a b s)) cur (W cur e (x :: l))) ->
    forall l, Forall covering l -> forall i s o s', result (tr_right (tr true locals) (fun d _ => d) compose i l 0 s) = Some (o, s') ->
    match l with
    | [] => o = None
    | e :: l => exists r, o = Some r /\ forall cur, fits r cur (W cur e l)
    end.
  Proof.
    intros compose W W0 C. induction 1 as [|e l H _ IH]; intros i s o s' E; cbn in E.
    - inv_out. auto.
    - apply obind_some in E. destruct E as ((o0, s1) & E0 & E). apply obind_some in E. destruct E as ((e1, s2) & E1 & E).
      specialize (IH _ _ _ _ E0). pose proof (H _ _ _ E1) as He. destruct l as [|a l].
      + subst o0. cbn in E. inv_out. eexists. split; [reflexivity|]. intros cur. eapply fits_same; [apply He|]. symmetry. apply W0.
      + destruct IH as (r & -> & Hr). pose proof (fun cur => C 0 i e1 r s2 cur e a l (He cur) Hr) as X. destruct (compose 0 i e1 r s2) as [r' s3]. cbn in E. inversion E; subst.
        eexists. split; [reflexivity|]. exact X.
  Qed.
  Lemma cover_chain : forall compose (W : nat -> sexpr -> list sexpr -> Prop),
    (forall cur e, W cur e [] <-> covered cur e) ->
    (forall d i a b s cur e x l, fits a cur (covered cur e) -> (forall cur, fits b cur (W cur x l)) -> fits (fst (compose d i a b s)) cur (W cur e (x :: l))) ->
    forall e l, covering e -> Forall covering l -> forall s r s',
    result ('(acc, s) <~ tr_right (tr true locals) (fun d _ => d) compose 1 l 0 s;;
            '(e, s) <~ tr true locals e 0 s;;
            match acc with
            | None => done (e, s)
            | Some after => done (compose 0 0 e after s)
            end) = Some (r, s') -> forall cur, fits r cur (W cur e l).
  Proof.
    intros compose W W0 C e l He Hl s r s' E.
    assert (R : result (tr_right (tr true locals) (fun d _ => d) compose 0 (e :: l) 0 s) = Some (Some r, s')).
    { apply obind_some in E. destruct E as ((o0, s1) & E0 & E). apply obind_some in E. destruct E as ((e1, s2) & E1 & E). cbn.
      rewrite result_obind. fold (tr_right (tr true locals) (fun d _ => d) compose). rewrite E0. rewrite result_obind, E1. destruct o0 as [a|]; [|cbn in *; inversion E; auto].
      destruct (compose 0 0 e1 a s2). cbn in *. inversion E; auto. }
    apply (cover_right _ W W0 C) in R; [|constructor; auto]. destruct R as (r' & Er & R). inversion Er; subst. auto.
  Qed.
End Covered.

Lemma tr_covered : forall locals e, covering locals e.
Proof.
  intros locals e.
  assert (Three : forall a b c cur P Q R e', (forall m, Positivity.pos e' cur m = (m <~ Positivity.pos a cur m;; m <~ Positivity.pos b cur m;; Positivity.pos c cur m)) ->
    fits a cur P -> fits b cur Q -> fits c cur R -> fits e' cur (P /\ Q /\ R)).
  { intros a b c cur P Q R e' E A B D m. rewrite E. apply (fits_seq _ _ P (Q /\ R) A). intros m1. apply (fits_seq _ _ Q R B D). }
  induction e using sexpr_ind'; intros s e' s' E cur; cbn [tr] in E.
  - inv_out. intros m. cbn [covered]. destruct l; unfold tr_lit in E0; try destruct (in_i64 _); inv_out; (split; [auto|intros _; eexists; reflexivity]).
  - inv_out. intros m. cbn [covered]. split; [auto|intros _]. unfold tr_var. destruct (existsb _ _); cbn; eauto.
  - inv_out. cbn [covered]. apply cover_paren. eapply cover_elems; eauto.
  - inv_out. cbn [covered]. intros m. cbn [Positivity.pos]. apply cover_paren. eapply cover_elems; eauto.
  - inv_out. intros m. cbn [covered Positivity.pos]. eapply IHe; eauto.
  - inv_out. intros m. cbn [covered Positivity.pos]. eapply IHe; eauto.
  - cbv zeta in E. apply obind_some in E. destruct E as ((e1, s1) & E1 & E). inv_out. intros m. cbn [covered Positivity.pos]. destruct cur as [|cur].
    + split; [intros (? & X); discriminate|tauto].
    + eapply IHe; eauto.
  - inv_out. cbn [covered]. eapply Three; eauto. reflexivity.
  - inv_out. cbn [covered]. eapply Three; eauto. reflexivity.
  - inv_out. cbn [covered]. eapply (cover_bins locals _ EBin); eauto. intros. eapply fits_two; eauto. reflexivity.
  - inv_out. cbn [covered]. destruct l as [|[op a] [|[op' b] l]]; inv_out.
    + eapply fits_same; [eapply IHe; eauto|]. cbn. tauto.
    + inversion H; subst. eapply fits_same; [eapply fits_two; [reflexivity|eapply IHe; eauto|eapply H2; eauto]|]. cbn. tauto.
  - inv_out. cbn [covered]. eapply (cover_bins locals _ EClock); eauto. intros op a b c P Q A B. eapply fits_same; [eapply (fits_two (EClock op a b) b a); eauto; reflexivity|]. tauto.
  - eapply fits_same; [apply (cover_chain locals fby_registers (fun cur e l => covered cur e /\ all_of (covered cur) l)) with (e := e) (l := l) (s := s) (s' := s'); auto|cbn [covered]; reflexivity].
    + intros c x. cbn. tauto.
    + intros d i a b s0 c x y l0 A B. cbn [fst fby_registers]. eapply fits_same; [eapply (fits_two (EFetch (t_regs s0) (Some a) b) a b); [reflexivity|exact A|apply B]|]. cbn. tauto.
  - set (go := fix go (i : nat) (l : list sexpr) : Prop := match l with [] => True | e :: l => covered i e /\ go (S i) l end).
    eapply fits_same; [apply (cover_chain locals then_flips (fun cur e l => covered cur e /\ go (S cur) l)) with (e := e) (l := l) (s := s) (s' := s'); auto|cbn [covered]; reflexivity].
    + intros c x. cbn. tauto.
    + intros d i a b s0 c x y l0 A B. cbn [fst then_flips]. intros m. cbn [Positivity.pos]. rewrite Nat.add_1_r.
      rewrite (fits_seq (Positivity.pos a c) (Positivity.pos b (S c)) _ _ A (B (S c)) m). cbn. tauto.
Qed.

Lemma past_stmts_fit : forall l m, (forall i, In i l -> forall m m2, (exists m', result (pos_stmt i m) = Some m') -> exists m', result (pos_stmt i m2) = Some m') ->
  ((exists m', result (pos_stmts l m) = Some m') <-> forall i, In i l -> exists m', result (pos_stmt i []) = Some m').
Proof.
  induction l as [|i l IH]; intros y H; cbn [pos_stmts].
  - cbn. split; [intros _ ? []|eauto].
  - assert (IH' : forall y, (exists y', result (pos_stmts l y) = Some y') <-> forall i, In i l -> exists y', result (pos_stmt i []) = Some y')
      by (intros; apply IH; intros; eapply H; cbn; eauto).
    split.
    + intros (y' & E). apply obind_some in E. destruct E as (y1 & E1 & E2).
      intros j [<-|J]; [|apply (IH' y1); eauto]. apply (H i (or_introl eq_refl) y). eauto.
    + intros A. destruct (H i (or_introl eq_refl) [] y (A i (or_introl eq_refl))) as (y1 & E1). rewrite result_obind, E1.
      apply IH'. intros; apply A; cbn; auto.
Qed.

Lemma node_past : forall o sn nd nd' nd3,
  result (tr_node o sn) = Some nd -> node_causality nd = inl nd' ->
  (forall i, In i (filter sourced (n_stmts nd3)) <-> In i (filter sourced (n_stmts nd'))) ->
  (exists r, result (pos_node nd3) = Some r) <->
  forall i, In i (s_defs sn) -> past_ok (o_universal o) (node_vars sn) (right_side i).
Proof.
  intros o sn nd nd' nd3 Tn Cn Q.
  pose proof (tr_node_translated _ _ _ Tn) as T. destruct (node_stmts_perm _ _ Cn) as [Pm En].
  assert (Names : map v_name (all_vars nd) = node_vars sn).
  { unfold all_vars, node_vars. rewrite (td_inputs _ _ _ T), (td_outputs _ _ _ T), (td_locals _ _ _ T), !map_app, !tr_decls_names. reflexivity. }
  assert (One : forall i i', translates (o_universal o) (map v_name (all_vars nd)) (n_blocks nd) i i' ->
      forall y, (exists y', result (pos_stmt i' y) = Some y') <-> past_ok (o_universal o) (node_vars sn) (right_side i)).
  { intros i i' (s & s' & e' & bl & E & B) y.
    assert (X : result (tr (o_universal o) (map v_name (all_vars nd)) (right_side i) 0 s) = Some (e', s') /\
        pos_stmt i' y = Positivity.pos e' 0 y) by (destruct i, E as [E ->]; auto).
    destruct X as [X1 ->]. rewrite Names in X1. unfold past_ok. destruct (o_universal o).
    - apply (tr_covered _ _ _ _ _ X1).
    - apply (Positive.tr_fit _ _ _ _ _ _ X1 0). }
  assert (Src : forall i, In i (n_stmts nd3) -> (exists j, In j (s_defs sn) /\ translates (o_universal o) (map v_name (all_vars nd)) (n_blocks nd) j i) \/
      forall y, exists y', result (pos_stmt i y) = Some y').
  { intros i I. destruct (sourced i) eqn:Es.
    - left. eapply forall2_in_r; [exact (td_sourced _ _ _ T)|]. assert (K : In i (filter sourced (n_stmts nd'))) by (apply Q, filter_In; auto).
      apply filter_In in K. apply filter_In. split; auto. eapply Permutation_in; [eauto|tauto].
    - right. intros y. destruct i; try discriminate; cbn; eauto. }
  unfold pos_node. transitivity (exists m, result (pos_stmts (n_stmts nd3) []) = Some m).
  { split; [intros (r & H); apply obind_some in H; destruct H as (m & H & _); eauto|]. intros (m & H). rewrite result_obind, H. cbn. eauto. }
  rewrite past_stmts_fit.
  - split.
    + intros A i I. destruct (forall2_in_l _ _ _ (td_sourced _ _ _ T) _ I) as (i' & I' & R). apply (One _ _ R []). apply A.
      assert (K : In i' (filter sourced (n_stmts nd'))); [|apply Q in K; apply filter_In in K; tauto].
      apply filter_In in I'. apply filter_In. split; [eapply Permutation_in; [apply Permutation_sym, Pm|tauto]|tauto].
    + intros A i I. destruct (Src i I) as [(j & J & R)|R]; [apply (One _ _ R); auto|apply R].
  - intros i I y y2 S. destruct (Src i I) as [(j & J & R)|R]; [apply (One _ _ R); apply (One _ _ R) in S; auto|apply R].
Qed.
