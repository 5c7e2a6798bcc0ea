(** The conditions on the equations of a source node under which its statements can be ordered. *)
From Coq Require Import String List ZArith Bool Arith Lia Permutation.
From Verif Require Import Model.Base Model.Scalar Model.Value Model.Register Model.Ast Model.Errors Model.Interp Model.Options Model.Surface Model.Translate
  Model.Graph Model.Causality
  Spec.CausalitySpec Spec.TranslateSpec Spec.GraphSpec Spec.ProgramSem Spec.SourceCausal
  Proofs.AstInd Proofs.OutBasics Proofs.CoreProofs Proofs.CausalityProofs
  Proofs.TranslateSem Proofs.TranslateStruct Proofs.NodeWf Proofs.PipelineProofs Proofs.ProgramProofs Proofs.UniProgram Proofs.SourceOrder.
Import ListNotations.

(** ** What the translation of an expression reads at the same instant *)
Section Tr.
  Variable u : bool.
  Variable locals : list ident.
  Local Notation f := (tr u locals).
  Definition adds (e : sexpr) : Prop := forall d s e' s', result (f e d s) = Some (e', s') ->
    forall x, In x (nows e') -> d = 0 /\ In x locals /\ In x (now e).

  Lemma adds_elems : forall l, Forall adds l -> forall d s es s', result (tr_elems f l d s) = Some (es, s') ->
    forall x, In x (flat_map nows es) -> d = 0 /\ In x locals /\ In x (flat_map now l).
  Proof.
    induction 1 as [|e l He Hl IH]; intros d s es s' E x I; cbn in E.
    - inversion E; subst. destruct I.
    - apply obind_some in E. destruct E as ((e1, s1) & E1 & E). apply obind_some in E. destruct E as ((l1, s2) & E2 & E). inversion E; subst.
      cbn [flat_map] in *. apply in_app_iff in I. rewrite in_app_iff. destruct I as [I|I].
      + destruct (He _ _ _ _ E1 _ I) as (A & B & C). auto.
      + destruct (IH _ _ _ _ E2 _ I) as (A & B & C). auto.
  Qed.
  Lemma adds_left : forall {O} (compose : O -> expr -> expr -> expr), (forall o a b, nows (compose o a b) = nows a ++ nows b) ->
    forall l, Forall (fun p => adds (snd p)) l -> forall acc d s r s', result (tr_left f compose acc l d s) = Some (r, s') ->
    forall x, In x (nows r) -> In x (nows acc) \/ d = 0 /\ In x locals /\ In x (flat_map (fun p => now (snd p)) l).
  Proof.
    intros O compose C. induction 1 as [|[op e] l He Hl IH]; intros acc d s r s' E x I; cbn in E.
    - inversion E; subst. auto.
    - apply obind_some in E. destruct E as ((e1, s1) & E1 & E). cbn [snd] in He. cbn [flat_map snd]. rewrite in_app_iff.
      destruct (IH _ _ _ _ _ E _ I) as [J|(A & B & J)]; auto. rewrite C, in_app_iff in J. destruct J as [J|J]; auto.
      right. destruct (He _ _ _ _ E1 _ J) as (A & B & D). auto.
  Qed.
  Lemma adds_right : forall bump compose,
    (forall d i a b s, incl (nows (fst (compose d i a b s))) (nows a ++ nows b)) ->
    forall l, Forall adds l -> forall i d s a s', result (tr_right f bump compose i l d s) = Some (Some a, s') ->
    forall x, In x (nows a) -> (exists j, i <= j /\ bump d j = 0) /\ In x locals /\ In x (flat_map now l).
  Proof.
    intros bump compose C. induction 1 as [|e l He Hl IH]; intros i d s a s' E x I; cbn in E.
    - discriminate.
    - apply obind_some in E. destruct E as ((acc, s1) & E1 & E). apply obind_some in E. destruct E as ((e1, s2) & E2 & E).
      cbn [flat_map]. rewrite in_app_iff.
      assert (K : In x (nows e1) -> (exists j, i <= j /\ bump d j = 0) /\ In x locals /\ In x (now e)).
      { intros J. destruct (He _ _ _ _ E2 _ J) as (A & B & D). eauto. }
      destruct acc as [b|].
      + destruct (compose d i e1 b s2) as [r1 s3] eqn:Ec. inversion E; subst.
        assert (J : In x (nows e1 ++ nows b)) by (apply (C d i e1 b s2); rewrite Ec; auto).
        apply in_app_iff in J. destruct J as [J|J]; [destruct (K J) as (A & B & D); auto|].
        destruct (IH _ _ _ _ _ E1 _ J) as ((j & A1 & A2) & B & D). split; [exists j; split; [lia|auto]|auto].
      + inversion E; subst. destruct (K I) as (A & B & D). auto.
  Qed.
  Lemma nows_of_paren : forall es b, nows (paren es b) = flat_map nows es.
  Proof. intros [|e [|e' l]] [|]; cbn; rewrite ?app_nil_r; auto. Qed.

End Tr.
Lemma tr_adds : forall u locals e, adds u locals e.
Proof.
  intros u locals. induction e using sexpr_ind'; intros d s e' s' E y I; cbn [tr] in E.
  - apply obind_some in E. destruct E as (x & X & E). inversion E; subst. destruct l; cbn in X; try destruct (in_i64 z); inversion X; subst; destruct I.
  - inversion E; subst. unfold tr_var in I. destruct (existsb (String.eqb x) locals) eqn:Q; [|destruct I].
    destruct d; cbn in I; [|destruct I]. destruct I as [<-|[]]. cbn. apply existsb_exists in Q. destruct Q as (z & Z & Q). apply String.eqb_eq in Q. subst. auto.
  - apply obind_some in E. destruct E as ((es, s1) & X & E). inversion E; subst. rewrite nows_of_paren in I. eapply adds_elems; eauto.
  - apply obind_some in E. destruct E as ((es, s1) & X & E). inversion E; subst. cbn [nows] in I. rewrite nows_of_paren in I. eapply adds_elems; eauto.
  - apply obind_some in E. destruct E as ((e1, s1) & X & E). inversion E; subst. eapply IHe; eauto.
  - apply obind_some in E. destruct E as ((e1, s1) & X & E). inversion E; subst. eapply IHe; eauto.
  - destruct u.
    + apply obind_some in E. destruct E as ((e1, s1) & X & E). inversion E; subst. destruct I.
    + apply obind_some in E. destruct E as ((e1, s1) & X & E). inversion E; subst. destruct (IHe _ _ _ _ X _ I). discriminate.
  - apply obind_some in E. destruct E as ((c1, s1) & X1 & E). apply obind_some in E. destruct E as ((y1, s2) & X2 & E). apply obind_some in E. destruct E as ((n1, s3) & X3 & E). inversion E; subst.
    cbn [nows] in I. cbn [now]. rewrite !in_app_iff in I. rewrite !in_app_iff. destruct I as [I|[I|I]]; [destruct (IHe1 _ _ _ _ X1 _ I)|destruct (IHe2 _ _ _ _ X2 _ I)|destruct (IHe3 _ _ _ _ X3 _ I)]; tauto.
  - apply obind_some in E. destruct E as ((c1, s1) & X1 & E). apply obind_some in E. destruct E as ((y1, s2) & X2 & E). apply obind_some in E. destruct E as ((n1, s3) & X3 & E). inversion E; subst.
    cbn [nows] in I. cbn [now]. rewrite !in_app_iff in I. rewrite !in_app_iff. destruct I as [I|[I|I]]; [destruct (IHe1 _ _ _ _ X1 _ I)|destruct (IHe2 _ _ _ _ X2 _ I)|destruct (IHe3 _ _ _ _ X3 _ I)]; tauto.
  - apply obind_some in E. destruct E as ((e1, s1) & X & E). cbn [now]. rewrite in_app_iff.
    destruct (adds_left _ _ EBin (fun _ _ _ => eq_refl) _ H _ _ _ _ _ E _ I) as [J|J]; [destruct (IHe _ _ _ _ X _ J)|]; tauto.
  - apply obind_some in E. destruct E as ((e1, s1) & X & E). cbn [now]. rewrite in_app_iff.
    destruct l as [|[op a] [|[op2 b] l]].
    + inversion E; subst. destruct (IHe _ _ _ _ X _ I). tauto.
    + apply obind_some in E. destruct E as ((a1, s2) & X2 & E). inversion E; subst. inversion H as [|? ? Ha]; subst. cbn [snd] in Ha.
      cbn [nows] in I. apply in_app_iff in I. cbn. rewrite app_nil_r. destruct I as [I|I]; [destruct (IHe _ _ _ _ X _ I)|destruct (Ha _ _ _ _ X2 _ I)]; tauto.
    + apply obind_some in E. destruct E as ((a1, s2) & X2 & E). apply obind_some in E. destruct E as ((b1, s3) & X3 & E). discriminate.
  - apply obind_some in E. destruct E as ((e1, s1) & X & E). cbn [now]. rewrite in_app_iff.
    destruct (adds_left _ _ EClock (fun _ _ _ => eq_refl) _ H _ _ _ _ _ E _ I) as [J|J]; [destruct (IHe _ _ _ _ X _ J)|]; tauto.
  - apply obind_some in E. destruct E as ((acc, s1) & X & E). apply obind_some in E. destruct E as ((e1, s2) & X2 & E). cbn [now].
    assert (K : In y (nows e1) -> d = 0 /\ In y locals /\ In y (now e)).
    { intros J. destruct (IHe _ _ _ _ X2 _ J) as (A & B). split; auto. destruct u; lia. }
    destruct acc as [a|]; [|inversion E; subst; auto]. destruct u; inversion E; subst; cbn [nows fst] in I; auto.
    apply in_app_iff in I. destruct I as [I|I]; auto.
    eapply (adds_right _ _ (fun d i => d + i) later) in X; [|intros ? ? ? ? ? ? ?; auto|exact H|exact I]. destruct X as ((j & A & B) & _). lia.
  - apply obind_some in E. destruct E as ((acc, s1) & X & E). apply obind_some in E. destruct E as ((e1, s2) & X2 & E). cbn [now]. rewrite in_app_iff.
    assert (K : In y (nows e1) -> d = 0 /\ In y locals /\ In y (now e)) by (intros J; destruct (IHe _ _ _ _ X2 _ J); auto).
    destruct acc as [a|]; [|inversion E; subst; tauto].
    assert (C : forall d i a b s, nows (fst ((if u then then_flips else later) d i a b s)) = nows a ++ nows b) by (destruct u; reflexivity).
    destruct ((if u then then_flips else later) d 0 e1 a s2) as [r1 s3] eqn:Ec. inversion E; subst.
    specialize (C d 0 e1 a s2). rewrite Ec in C. cbn [fst] in C. rewrite C in I. apply in_app_iff in I. destruct I as [I|I]; [tauto|].
    eapply adds_right in X; [|destruct u; intros ? ? ? ? ? ? ?; auto|exact H|exact I]. destruct X as ((j & A & B) & X1 & X3). auto.
Qed.

(** ** What statements need and give *)
Fixpoint esize (e : expr) : nat :=
  S match e with
    | ELit _ | EVar _ _ | EGlobal _ => 0
    | ETuple l => fold_right (fun e n => esize e + n) 0 l
    | EPre e | EParen e | EUn _ e | ESub _ _ e => esize e
    | EBin _ a b | ECmp _ a b | EClock _ a b | ELater _ a b | EFlip _ a b => esize a + esize b
    | EIf a b c | EMerge a b c => esize a + esize b + esize c
    | EFetch _ i n => match i with Some i => esize i | None => 0 end + esize n
    end.
Lemma reads_inside : forall e id i n, In (id, (Some i, n)) (reads_of e) -> esize i < esize e /\ incl (nows i) (nows e).
Proof.
  induction e using expr_ind'; intros id0 i0 n0 I; cbn [reads_of] in I; try (destruct I; fail);
    try (specialize (IHe _ _ _ I) as [A B]; cbn [esize nows]; split; [lia|auto]; fail);
    try (apply in_app_iff in I; destruct I as [I|I]; [specialize (IHe1 _ _ _ I) as [A B]|specialize (IHe2 _ _ _ I) as [A B]]; cbn [esize nows]; split; try lia; intros x X; apply in_app_iff; auto; fail).
  - apply in_flat_map in I. destruct I as (e & J & I). rewrite Forall_forall in H. destruct (H _ J _ _ _ I) as [A B]. cbn [esize nows]. split.
    + clear -A J. induction l as [|a l IH]; [destruct J|]. cbn. destruct J as [->|J]; [lia|]. specialize (IH J). lia.
    + intros x X. apply in_flat_map. eauto.
  - destruct I as [I|[]]. inversion I; subst. cbn. split; [lia|]. intros x X. auto.
  - rewrite !in_app_iff in I. destruct I as [I|[I|I]]; [specialize (IHe1 _ _ _ I) as [A B]|specialize (IHe2 _ _ _ I) as [A B]|specialize (IHe3 _ _ _ I) as [A B]]; cbn [esize nows]; split; try lia; intros x X; rewrite !in_app_iff; auto.
  - rewrite !in_app_iff in I. destruct I as [I|[I|I]]; [specialize (IHe1 _ _ _ I) as [A B]|specialize (IHe2 _ _ _ I) as [A B]|specialize (IHe3 _ _ _ I) as [A B]]; cbn [esize nows]; split; try lia; intros x X; rewrite !in_app_iff; auto.
Qed.
Lemma reads_nows : forall x e, reads_now x e -> In x (nows e).
Proof. induction 1; cbn [nows]; rewrite ?in_app_iff; auto; [cbn; auto|]. apply in_flat_map. eauto. Qed.

Lemma pattern_targets : forall t, target_vars (tr_target t) = pattern_vars t.
Proof.
  fix IH 1. intros [x|l b]; [reflexivity|]. cbn [tr_target pattern_vars].
  assert (E : flat_map target_vars (map tr_target l) = flat_map pattern_vars l).
  { induction l as [|t l IHl]; cbn; auto. rewrite IH, IHl. auto. }
  rewrite <- E. destruct (map tr_target l) as [|v [|v' m]], b; cbn; rewrite ?app_nil_r; auto.
Qed.
Definition lets (s : stmt) : list ident := match s with SLet t _ => target_vars t | _ => [] end.
Lemma provides_split : forall l, Permutation (flat_map stmt_provides l) (map RLocal (flat_map lets l) ++ map RInitReg (flat_map CoreProofs.stmt_inits l)).
Proof.
  induction l as [|s l IH]; cbn [flat_map]; auto. rewrite IH, !map_app. destruct s; cbn [stmt_provides lets CoreProofs.stmt_inits map app]; auto.
  - rewrite app_assoc. auto.
  - apply Permutation_middle.
Qed.

Lemma nodup_app_l : forall {A} (l m : list A), NoDup (l ++ m) -> NoDup l.
Proof. induction l as [|a l IH]; intros m N; [constructor|]. cbn in N. inversion N; subst. constructor; eauto. intros J. apply H1. apply in_app_iff. auto. Qed.
Lemma nodup_app_r : forall {A} (l m : list A), NoDup (l ++ m) -> NoDup m.
Proof. induction l as [|a l IH]; intros m N; auto. cbn in N. inversion N; subst. auto. Qed.

Section Node.
  Variables (u : bool) (sn : snode) (nd : node).
  Hypothesis T : translated u sn nd.
  Let names : map v_name (all_vars nd) = node_vars sn.
  Proof. unfold all_vars, node_vars. rewrite !map_app, (td_inputs _ _ _ T), (td_outputs _ _ _ T), (td_locals _ _ _ T), !tr_decls_names. auto. Qed.

  Lemma lets_assigns : flat_map lets (n_stmts nd) = flat_map assigns (s_defs sn).
  Proof.
    transitivity (flat_map lets (filter sourced (n_stmts nd))).
    - induction (n_stmts nd) as [|s l IH]; auto. destruct s; cbn; rewrite IH; auto.
    - induction (td_sourced _ _ _ T) as [|i i' l l' (s & s' & e & bl & X & _) F IH]; cbn [flat_map]; auto. rewrite IH. f_equal.
      destruct i; destruct X as [_ ->]; cbn; auto. apply pattern_targets.
  Qed.
  Lemma provides_source : Permutation (flat_map stmt_provides (n_stmts nd))
    (map RLocal (flat_map assigns (s_defs sn)) ++ map RInitReg (seq 0 (length (n_regs nd)))).
  Proof. rewrite provides_split, lets_assigns. rewrite (td_inits _ _ _ T). auto. Qed.

  Lemma single_source : single_assignment stmt_provides (n_stmts nd) (map (fun x => RLocal (v_name x)) (n_inputs nd)) <->
    NoDup (flat_map assigns (s_defs sn)) /\ (forall x, In x (declared (s_inputs sn)) -> ~ In x (flat_map assigns (s_defs sn))).
  Proof.
    assert (L : forall x, In (RLocal x) (flat_map stmt_provides (n_stmts nd)) <-> In x (flat_map assigns (s_defs sn))).
    { intros x. split; intros J.
      - apply (Permutation_in _ provides_source) in J. apply in_app_iff in J. destruct J as [J|J]; apply in_map_iff in J; destruct J as (y & E & J); inversion E; subst; auto.
      - apply (Permutation_in _ (Permutation_sym provides_source)). apply in_app_iff. left. apply in_map. auto. }
    unfold single_assignment. rewrite <- tr_decls_names, <- (td_inputs _ _ _ T). split; intros [A B]; split.
    - apply (Permutation_NoDup provides_source) in A. apply nodup_app_l in A. eapply NoDup_map_inv; eauto.
    - intros x J K. apply in_map_iff in J. destruct J as (v & <- & J). apply (B (RLocal (v_name v))); [apply in_map_iff; eauto|]. apply L. auto.
    - apply (Permutation_NoDup (Permutation_sym provides_source)). 
      assert (N1 : NoDup (map RLocal (flat_map assigns (s_defs sn)))) by (apply FinFun.Injective_map_NoDup; auto; intros ? ? E; inversion E; auto).
      assert (N2 : NoDup (map RInitReg (seq 0 (length (n_regs nd))))) by (apply FinFun.Injective_map_NoDup; [intros ? ? E; inversion E; auto|apply seq_NoDup]).
      clear -N1 N2. induction (flat_map assigns (s_defs sn)) as [|x l IH]; cbn in *; auto. inversion N1; subst. constructor; auto.
      rewrite in_app_iff. intros [J|J]; auto. apply in_map_iff in J. destruct J as (? & E & _). discriminate.
    - intros r J K. apply in_map_iff in J. destruct J as (v & <- & J). apply L in K. apply (B (v_name v)); auto. apply in_map. auto.
  Qed.
  Lemma complete_source : complete stmt_provides (n_stmts nd) (map (fun x => RLocal (v_name x)) (n_locals nd ++ n_outputs nd)) <->
    (forall x, In x (declared (s_outputs sn) ++ declared (s_locals sn)) -> In x (flat_map assigns (s_defs sn))).
  Proof.
    assert (L : forall x, In (RLocal x) (flat_map stmt_provides (n_stmts nd)) <-> In x (flat_map assigns (s_defs sn))).
    { intros x. split; intros J.
      - apply (Permutation_in _ provides_source) in J. apply in_app_iff in J. destruct J as [J|J]; apply in_map_iff in J; destruct J as (y & E & J); inversion E; subst; auto.
      - apply (Permutation_in _ (Permutation_sym provides_source)). apply in_app_iff. left. apply in_map. auto. }
    unfold complete. rewrite <- !tr_decls_names, <- (td_outputs _ _ _ T), <- (td_locals _ _ _ T). split; intros C.
    - intros x J. apply L, C. apply in_map_iff. rewrite <- map_app in J. apply in_map_iff in J. destruct J as (v & <- & J). exists v. split; auto. rewrite in_app_iff in *. tauto.
    - intros r J. apply in_map_iff in J. destruct J as (v & <- & J). apply L, C. rewrite <- map_app. apply in_map. rewrite in_app_iff in *. tauto.
  Qed.

  (** *** Cycles *)
  Definition needs (i : sstmt) : list ident := filter (fun x => existsb (String.eqb x) (node_vars sn)) (now (right_side i)).
  Lemma needs_in : forall x i, In x (needs i) <-> In x (now (right_side i)) /\ In x (node_vars sn).
  Proof.
    intros x i. unfold needs. rewrite filter_In. split; intros [A B]; split; auto.
    - apply existsb_exists in B. destruct B as (y & J & E). apply String.eqb_eq in E. subst. auto.
    - apply existsb_exists. exists x. split; auto. apply String.eqb_refl.
  Qed.
  Lemma waits_depends : forall i j, waits_plus sn i j <-> depends_plus assigns needs (s_defs sn) i j.
  Proof.
    assert (W : forall i j, waits_for sn i j <-> depends_on assigns needs (s_defs sn) i j).
    { intros i j. split; intros (a & b & x & A & B & C); exists a, b, x; [|apply proj1 in C as D; apply needs_in in D]; rewrite ?needs_in in *; tauto. }
    intros i j. split; induction 1; [apply dp_one|eapply dp_more|apply wp_one|eapply wp_more]; try apply W; eauto.
  Qed.

  (** The statement translated from an equation. *)
  Lemma source_stmt : forall i, In i (s_defs sn) -> exists s e', In s (n_stmts nd) /\ stmt_value s = Some e' /\ lets s = assigns i /\
    (forall x, In x (nows e') <-> In x (needs i)).
  Proof.
    intros i I. destruct (forall2_in_l _ _ _ (td_sourced _ _ _ T) _ I) as (s & J & (t & t' & e' & bl & Tr & _)). rewrite names in Tr.
    apply filter_In in J. destruct J as [J _]. exists s, e'. split; auto.
    assert (E : result (tr u (node_vars sn) (right_side i) 0 t) = Some (e', t') /\ stmt_value s = Some e' /\ lets s = assigns i).
    { destruct i; destruct Tr as [Tr ->]; cbn; auto. split; auto. split; auto. apply pattern_targets. }
    destruct E as (E & V & L). split; auto. split; auto. intros x. rewrite needs_in. split.
    - intros X. destruct (tr_adds _ _ _ _ _ _ _ E _ X) as (_ & A & B). auto.
    - intros [A B]. eapply tr_keeps; eauto.
  Qed.
  Lemma stmt_source : forall t e, In (SLet t e) (n_stmts nd) -> exists i, In i (s_defs sn) /\ assigns i = target_vars t /\ (forall x, In x (nows e) -> In x (needs i)).
  Proof.
    intros t e I. assert (J : In (SLet t e) (filter sourced (n_stmts nd))) by (apply filter_In; auto).
    destruct (forall2_in_r _ _ _ (td_sourced _ _ _ T) _ J) as (i & K & (a & a' & e' & bl & Tr & _)). rewrite names in Tr. exists i. split; auto.
    destruct i; destruct Tr as [Tr E]; inversion E; subst. split; [cbn; symmetry; apply pattern_targets|].
    intros x X. apply needs_in. destruct (tr_adds _ _ _ _ _ _ _ Tr _ X) as (_ & A & B). auto.
  Qed.
  Lemma requires_local : forall x e, In (RLocal x) (expr_requires e) -> In x (nows e).
  Proof. intros. apply reads_nows, requires_reads. auto. Qed.
  Lemma requires_register : forall s e r, In s (n_stmts nd) -> stmt_value s = Some e -> In (RInitReg r) (expr_requires e) ->
    forall v c, In (SInit r v c) (n_stmts nd) -> exists n, In (r, (v, n)) (reads_of e).
  Proof.
    intros s e r I V R v c J. apply requires_fetches in R. apply fetches_reads in R. destruct R as (i & n & R). exists n.
    assert (Ie : In e (stmt_exprs s)) by (destruct s as [? ?|?|? w cc|? ?]; [| |destruct w, cc|]; cbn in V; inversion V; subst; simpl; auto).
    destruct (read_stmt _ _ _ T _ _ I Ie _ _ _ R) as [_ K].
    assert (U : i = v); [|subst; auto].
    clear R V I Ie. assert (N : NoDup (flat_map CoreProofs.stmt_inits (n_stmts nd))) by (eapply Permutation_NoDup; [apply Permutation_sym, (td_inits _ _ _ T)|apply seq_NoDup]).
    revert J K N. clear. induction (n_stmts nd) as [|a l IH]; intros J K N; [destruct J|]. cbn [flat_map] in N.
    assert (Z : forall w k, In (SInit r w k) l -> ~ In r (CoreProofs.stmt_inits a)).
    { intros w k Iw Ia. destruct a; cbn in Ia; try tauto. destruct Ia as [->|[]]. cbn in N. inversion N; subst. apply H1. apply in_flat_map. eexists. split; [eauto|cbn; auto]. }
    assert (N' : NoDup (flat_map CoreProofs.stmt_inits l)) by (destruct a; cbn in N; auto; inversion N; auto).
    destruct J as [->|J], K as [K|K]; [inversion K; auto| | |auto]; exfalso.
    - eapply Z; [exact K|]. cbn. auto.
    - subst. eapply Z; [exact J|]. cbn. auto.
  Qed.

  Lemma acyclic_from_source : NoDup (flat_map assigns (s_defs sn)) -> acyclic assigns needs (s_defs sn) -> acyclic stmt_provides stmt_requires (n_stmts nd).
  Proof.
    intros N A.
    assert (X : exists out, schedule sstmt ident String.eqb assigns needs [] (s_defs sn) [] = inl out).
    { apply (schedule_iff String.eqb String.eqb_eq). split; [split; auto; intros ? []|]. split; auto. intros ? []. }
    destruct X as (out & X). pose proof (schedule_before String.eqb String.eqb_eq _ _ _ _ _ _ X) as B.
    apply (schedule_perm String.eqb String.eqb_eq) in X. destruct X as [P _].
    assert (Nd : NoDup (flat_map assigns out)) by (eapply Permutation_NoDup; [apply Permutation_flat_map, Permutation_sym, P|auto]).
    (* rank of a variable: position of its equation *)
    set (rank := fun x => (fix go l := match l with [] => 0 | i :: l => if existsb (String.eqb x) (assigns i) then 0 else S (go l) end) out).
    assert (Rk : forall k i x, nth_error out k = Some i -> In x (assigns i) -> rank x = k).
    { unfold rank. clear -Nd. induction out as [|a l IH]; intros k i x E J; [destruct k; discriminate|]. cbn [flat_map] in Nd.
      destruct k; cbn in E.
      - inversion E; subst. assert (Q : existsb (String.eqb x) (assigns i) = true) by (apply existsb_exists; exists x; split; auto; apply String.eqb_refl). rewrite Q. auto.
      - destruct (existsb (String.eqb x) (assigns a)) eqn:Q.
        + exfalso. apply existsb_exists in Q. destruct Q as (y & Jy & Q). apply String.eqb_eq in Q. subst y.
          assert (K : In x (flat_map assigns l)) by (apply in_flat_map; exists i; split; auto; eapply nth_error_In; eauto).
          clear -Nd Jy K. induction (assigns a) as [|z m IH]; [destruct Jy|]. cbn in Nd. inversion Nd; subst. destruct Jy as [->|Jy]; auto. apply H1. apply in_app_iff. auto.
        + f_equal. eapply IH; eauto. apply nodup_app_r in Nd. auto. }
    assert (Lt : forall i, In i (s_defs sn) -> forall x y, In x (needs i) -> In x (flat_map assigns (s_defs sn)) -> In y (assigns i) -> rank x < rank y).
    { intros i I x y Nx Ax Ay. apply (Permutation_in _ (Permutation_sym P)) in I. apply In_nth_error in I. destruct I as (k & I).
      apply in_flat_map in Ax. destruct Ax as (j & J & Ax). apply (Permutation_in _ (Permutation_sym P)) in J. apply In_nth_error in J. destruct J as (k' & J).
      rewrite (Rk _ _ _ I Ay), (Rk _ _ _ J Ax). eapply B; eauto. }
    assert (Sm : forall i, In i (s_defs sn) -> forall x y, In x (assigns i) -> In y (assigns i) -> rank x = rank y).
    { intros i I x y Ax Ay. apply (Permutation_in _ (Permutation_sym P)) in I. apply In_nth_error in I. destruct I as (k & I).
      rewrite (Rk _ _ _ I Ax), (Rk _ _ _ I Ay). auto. }
    set (asg := flat_map assigns (s_defs sn)) in *.
    set (rho := fun e => fold_right Nat.max 0 (map (fun x => if existsb (String.eqb x) asg then S (rank x) else 0) (nows e))).
    assert (Rin : forall x e, In x (nows e) -> In x asg -> rank x < rho e).
    { intros x e J K. unfold rho. assert (Q : existsb (String.eqb x) asg = true) by (apply existsb_exists; exists x; split; auto; apply String.eqb_refl).
      induction (nows e) as [|y l IH]; [destruct J|]. cbn. destruct J as [->|J]; [rewrite Q; lia|]. specialize (IH J). lia. }
    assert (Rup : forall e n, (forall x, In x (nows e) -> In x asg -> rank x < n) -> rho e <= n).
    { intros e n H. unfold rho. induction (nows e) as [|y l IH]; cbn; [lia|]. apply Nat.max_lub.
      - destruct (existsb (String.eqb y) asg) eqn:Q; [|lia]. apply existsb_exists in Q. destruct Q as (z & Z & Q). apply String.eqb_eq in Q. subst. apply H; cbn; auto.
      - apply IH. intros. apply H; cbn; auto. }
    set (M := fun s => match s with
      | SLet t e => (match target_vars t with [] => 0 | y :: _ => rank y end, esize e)
      | SInit _ (Some v) _ => (rho v, esize v)
      | _ => (0, 0) end).
    set (below := fun (a b : nat * nat) => fst a < fst b \/ fst a = fst b /\ snd a < snd b).
    assert (Edge : forall s s' r, In s (n_stmts nd) -> stmt_provides s <> [] -> In s' (n_stmts nd) -> In r (stmt_requires s) -> In r (stmt_provides s') -> below (M s') (M s)).
    { intros s s' r I Ne I' R Pr.
      assert (Val : exists e, stmt_value s = Some e /\ In r (expr_requires e)).
      { destruct s as [t e|e|id v c|id e]; cbn in *; try (exists e; auto; fail); try congruence. destruct v as [v|]; [exists v; auto|destruct R]. }
      destruct Val as (e & V & Re).
      (* the level of a statement is above what it reads *)
      assert (Top : forall x, In x (nows e) -> In x asg -> rank x < fst (M s)).
      { intros x X Ax. destruct s as [t e0|e0|id v c|id e0]; cbn in V; inversion V; subst; cbn in Ne; try congruence.
        - destruct (stmt_source _ _ I) as (i & J & Ei & Nx). cbn [M fst]. destruct (target_vars t) as [|y l] eqn:Et; [destruct (Ne eq_refl)|].
          apply (Lt i J); auto. rewrite Ei. cbn. auto.
        - cbn [M fst]. auto. }
      assert (Sz : snd (M s) = esize e).
      { destruct s as [t e0|e0|id v c|id e0]; cbn in V; inversion V; subst; cbn in *; congruence. }
      destruct s' as [t' e'|e'|id' v' c'|id' e']; cbn [stmt_provides In] in Pr; try tauto.
      - apply in_map_iff in Pr. destruct Pr as (x & <- & Pr). left. cbn [M fst].
        destruct (stmt_source _ _ I') as (i & J & Ei & _).
        destruct (target_vars t') as [|y l] eqn:Et; [destruct Pr|].
        rewrite (Sm i J y x) by (rewrite Ei; cbn in *; auto). apply Top; [apply requires_local; auto|].
        unfold asg. apply in_flat_map. exists i. split; auto. rewrite Ei. auto.
      - destruct Pr as [<-|[]]. destruct (requires_register _ _ _ I V Re _ _ I') as (n & Rd).
        destruct v' as [v'|].
        + destruct (reads_inside _ _ _ _ Rd) as [S1 S2]. unfold below. rewrite Sz. cbn [M fst snd]. 
          assert (rho v' <= fst (M s)); [|lia]. apply Rup. intros x X Ax. apply Top; auto.
        + unfold below. rewrite Sz. cbn [M fst snd]. assert (0 < esize e) by (destruct e; cbn; lia). lia. }
    (* along a chain *)
    assert (Ch : forall i j, depends_plus stmt_provides stmt_requires (n_stmts nd) i j -> forall si sj, nth_error (n_stmts nd) i = Some si -> nth_error (n_stmts nd) j = Some sj ->
      stmt_provides sj <> [] /\ (stmt_provides si <> [] -> below (M sj) (M si))).
    { induction 1 as [i j (a & b & r & Ha & Hb & Hr & Hp)|i j k (a & b & r & Ha & Hb & Hr & Hp) H IH]; intros si sj Ei Ej; rewrite Ha in Ei; inversion Ei; subst a.
      - rewrite Hb in Ej. inversion Ej; subst b. split; [intros Z; rewrite Z in Hp; destruct Hp|]. intros Ne. eapply Edge; eauto using nth_error_In.
      - destruct (IH b sj Hb Ej) as [Nj L]. split; auto. intros Ne.
        assert (Nb : stmt_provides b <> []) by (intros Z; rewrite Z in Hp; destruct Hp).
        specialize (L Nb). assert (L' : below (M b) (M si)) by (eapply Edge; eauto using nth_error_In). unfold below in *. lia. }
    intros i C. assert (Ex : exists s, nth_error (n_stmts nd) i = Some s) by (inversion C as [? ? (a & b & r & Ha & _)|? ? ? (a & b & r & Ha & _)]; eauto).
    destruct Ex as (s & Es). destruct (Ch _ _ C s s Es Es) as [Ne L]. specialize (L Ne). unfold below in L. lia.
  Qed.

  Lemma acyclic_to_source : forall nd', node_causality nd = inl nd' -> acyclic assigns needs (s_defs sn).
  Proof.
    intros nd' C. pose proof (node_order _ _ C) as Ord. destruct (node_stmts_perm _ _ C) as [Pm _].
    assert (Once : forall x, definitions x (n_stmts nd') <= 1) by (intros x; rewrite (definitions_perm _ _ _ Pm); eapply node_once; eauto).
    assert (Bef : forall n s e, nth_error (n_stmts nd') n = Some s -> stmt_value s = Some e -> forall x, In x (nows e) ->
        forall k s', nth_error (n_stmts nd') k = Some s' -> stmt_count x s' <> 0 -> k < n).
    { intros n. induction n as [n IHn] using lt_wf_ind. intros s e Es Ve x I k s' Ek Cs.
      destruct (Ord _ _ Es) as [O1 O2]. destruct (nows_split _ _ I) as [R|(id & i & m & R & J)].
      - eapply O1; eauto. exists e. auto.
      - assert (Is : In s (n_stmts nd)) by (apply (Permutation_in _ Pm); eapply nth_error_In; eauto).
        assert (Ie : In e (stmt_exprs s)) by (destruct s as [? ?|?|? v cc|? ?]; [| |destruct v, cc|]; cbn in Ve; inversion Ve; subst; simpl; auto).
        destruct (read_stmt _ _ _ T _ _ Is Ie _ _ _ R) as [_ S0].
        apply (Permutation_in _ (Permutation_sym Pm)) in S0. apply In_nth_error in S0. destruct S0 as (n' & En').
        assert (L : n' < n) by (eapply O2; [|exact En']; exists e; split; auto; eapply reads_fetches; eauto).
        assert (k < n') by (eapply (IHn n' L); [exact En'|reflexivity|exact J|exact Ek|exact Cs]). lia. }
    assert (Cnt : forall x s, In x (lets s) -> stmt_count x s <> 0).
    { intros x [t e|e|id v c|id e] J; cbn in J; try tauto. cbn. rewrite target_count_vars. apply (count_occ_In string_dec) in J. lia. }
    assert (Pos : forall x n s, nth_error (n_stmts nd') n = Some s -> In x (lets s) -> index x (n_stmts nd') = n).
    { intros x n s E J. apply Cnt in J. apply index_unique with (s := s); auto. specialize (Once x).
      assert (definitions x (n_stmts nd') <> 0); [|lia]. intros Z. apply J. eapply definitions_none; eauto. }
    assert (Edge : forall i j a b, depends_on assigns needs (s_defs sn) i j -> nth_error (s_defs sn) i = Some a -> nth_error (s_defs sn) j = Some b ->
      exists x, In x (assigns b) /\ forall y, In y (assigns a) -> index x (n_stmts nd') < index y (n_stmts nd')).
    { intros i j a b (a' & b' & x & Ha & Hb & Nx & Ax) Ea Eb. rewrite Ea in Ha. rewrite Eb in Hb. inversion Ha; inversion Hb; subst a' b'. exists x. split; auto.
      intros y Ay. apply nth_error_In in Ea. apply nth_error_In in Eb.
      destruct (source_stmt _ Ea) as (sa & ea & Ia & Va & La & Na). destruct (source_stmt _ Eb) as (sb & eb & Ib & Vb & Lb & Nb).
      apply (Permutation_in _ (Permutation_sym Pm)) in Ia. apply In_nth_error in Ia. destruct Ia as (ka & Ka).
      apply (Permutation_in _ (Permutation_sym Pm)) in Ib. apply In_nth_error in Ib. destruct Ib as (kb & Kb).
      rewrite (Pos x _ _ Kb), (Pos y _ _ Ka) by congruence. eapply (Bef ka sa ea Ka Va x); [apply Na; auto|exact Kb|]. apply Cnt. congruence. }
    assert (Same : forall b x y, In b (s_defs sn) -> In x (assigns b) -> In y (assigns b) -> index x (n_stmts nd') = index y (n_stmts nd')).
    { intros b x y Ib Ax Ay. destruct (source_stmt _ Ib) as (sb & eb & Jb & Vb & Lb & Nb).
      apply (Permutation_in _ (Permutation_sym Pm)) in Jb. apply In_nth_error in Jb. destruct Jb as (kb & Kb). rewrite (Pos x _ _ Kb), (Pos y _ _ Kb) by congruence. auto. }
    assert (Ch : forall i j, depends_plus assigns needs (s_defs sn) i j -> forall a b, nth_error (s_defs sn) i = Some a -> nth_error (s_defs sn) j = Some b ->
      exists x, In x (assigns b) /\ forall y, In y (assigns a) -> index x (n_stmts nd') < index y (n_stmts nd')).
    { induction 1 as [i j D|i j k D H IH]; intros a b Ea Eb; [eapply Edge; eauto|].
      pose proof D as (a' & c & z & Ha & Hc & _). destruct (Edge _ _ _ _ D Ea Hc) as (x & Jx & Lx). destruct (IH _ _ Hc Eb) as (w & Jw & Lw).
      exists w. split; auto. intros y Jy. specialize (Lx y Jy). specialize (Lw x Jx). lia. }
    intros i D. assert (Ex : exists s, nth_error (s_defs sn) i = Some s) by (inversion D as [? ? (a & b & r & Ha & _)|? ? ? (a & b & r & Ha & _)]; eauto).
    destruct Ex as (a & Ea). destruct (Ch _ _ D _ _ Ea Ea) as (x & Jx & L). specialize (L x Jx). lia.
  Qed.
End Node.

Lemma causality_schedule : forall nd, (exists nd', node_causality nd = inl nd') <->
  single_assignment stmt_provides (n_stmts nd) (map (fun x => RLocal (v_name x)) (n_inputs nd)) /\
  complete stmt_provides (n_stmts nd) (map (fun x => RLocal (v_name x)) (n_locals nd ++ n_outputs nd)) /\
  acyclic stmt_provides stmt_requires (n_stmts nd).
Proof.
  intros nd. rewrite <- (schedule_iff _ reference_eqb_spec). split; intros (o & H).
  - apply node_causality_inv in H. destruct H. eauto.
  - unfold node_causality. rewrite H. eauto.
Qed.

Lemma causality_source : forall o sn nd, result (tr_node o sn) = Some nd -> ((exists nd', node_causality nd = inl nd') <-> solvable sn).
Proof.
  intros o sn nd H. apply tr_node_translated in H. unfold solvable. split.
  - intros (nd' & C). assert (X : exists nd', node_causality nd = inl nd') by eauto. apply causality_schedule in X. destruct X as (S & Co & A).
    apply (single_source _ _ _ H) in S. pose proof (proj1 (complete_source _ _ _ H) Co) as Co1. destruct S as [S1 S2]. split; auto. split; auto. split; auto.
    intros i W. apply waits_depends in W. eapply acyclic_to_source; eauto.
  - intros (S1 & S2 & Co & A). apply causality_schedule. split; [apply (single_source _ _ _ H); auto|]. split; [apply (proj2 (complete_source _ _ _ H)); auto|].
    eapply acyclic_from_source; eauto. intros i D. apply (A i). apply waits_depends. auto.
Qed.
