(** The equations of an accepted node, in both modes: every variable is defined
    once, and one order respects the instantaneous dependencies of the source. *)
From Coq Require Import String List ZArith Bool Arith Lia Permutation.
From Verif Require Import Model.Base Model.Scalar Model.Value Model.Register Model.Ast Model.Errors Model.Interp Model.Options Model.Surface Model.Translate
  Model.Graph Model.Causality Model.Typecheck Model.Clockcheck Model.Positivity Model.Pipeline
  Spec.StepSpec Spec.CausalitySpec Spec.CoreSem Spec.TranslateSpec Spec.SurfaceSem Spec.ProgramSem Spec.SourceCausal
  Proofs.AstInd Proofs.OutBasics Proofs.CoreProofs Proofs.CausalityProofs
  Proofs.TranslateSem Proofs.TranslateStruct Proofs.NodeWf Proofs.PipelineProofs Proofs.ProgramProofs Proofs.UniProgram Proofs.UniClock.
Import ListNotations.

(** The variables of which a translated expression needs the present value: a register gives the value of its
    initialiser at the first instant. *)
Fixpoint nows (e : expr) : list ident :=
  match e with
  | ELit _ | EGlobal _ => []
  | EVar x d => match d with 0 => [x] | _ => [] end
  | EFetch _ i _ => match i with Some i => nows i | None => [] end
  | ETuple l => flat_map nows l
  | EPre e | EParen e | EUn _ e | ESub _ _ e => nows e
  | EBin _ a b | ECmp _ a b | EClock _ a b | ELater _ a b | EFlip _ a b => nows a ++ nows b
  | EIf a b c | EMerge a b c => nows a ++ nows b ++ nows c
  end.

Lemma nows_split : forall x e, In x (nows e) -> reads_now x e \/ exists id i n, In (id, (Some i, n)) (reads_of e) /\ In x (nows i).
Proof.
  intros x. induction e using expr_ind'; cbn [nows reads_of]; intros I; try (destruct I; fail).
  Local Ltac side IH c := destruct IH as [?|(? & ? & ? & ? & ?)]; [left; apply c; assumption|right; eauto 10 using in_or_app].
  - destruct d; [|destruct I]. destruct I as [->|[]]. left. constructor.
  - apply in_flat_map in I. destruct I as (e & Ie & I). rewrite Forall_forall in H. destruct (H e Ie I) as [R|(id & i & n & R & J)].
    + left. eapply rn_tuple; eauto.
    + right. exists id, i, n. split; auto. apply in_flat_map. eauto.
  - side (IHe I) rn_pre.
  - side (IHe I) rn_paren.
  - apply in_app_iff in I. destruct I as [I|I]; [side (IHe1 I) rn_bin1|side (IHe2 I) rn_bin2].
  - side (IHe I) rn_un.
  - apply in_app_iff in I. destruct I as [I|I]; [side (IHe1 I) rn_cmp1|side (IHe2 I) rn_cmp2].
  - apply in_app_iff in I. destruct I as [I|I]; [side (IHe1 I) rn_clk1|side (IHe2 I) rn_clk2].
  - apply in_app_iff in I. destruct I as [I|I]; [side (IHe1 I) rn_later1|side (IHe2 I) rn_later2].
  - match goal with X : OptForall _ ?o |- _ => destruct o as [i|]; [|destruct I] end. right. do 3 eexists. split; [simpl; eauto|auto].
  - apply in_app_iff in I. destruct I as [I|I]; [side (IHe1 I) rn_flip1|side (IHe2 I) rn_flip2].
  - rewrite !in_app_iff in I. destruct I as [I|[I|I]]; [side (IHe1 I) rn_if1|side (IHe2 I) rn_if2|side (IHe3 I) rn_if3].
  - rewrite !in_app_iff in I. destruct I as [I|[I|I]]; [side (IHe1 I) rn_merge1|side (IHe2 I) rn_merge2|side (IHe3 I) rn_merge3].
  - side (IHe I) rn_sub.
Qed.

Section Tr.
  Variable u : bool.
  Variable locals : list ident.
  Definition keeps (e : sexpr) : Prop := forall s e' s', result (tr u locals e 0 s) = Some (e', s') ->
    forall x, In x (now e) -> In x locals -> In x (nows e').

  Lemma keeps_elems : forall l, Forall keeps l -> forall s es s', result (tr_elems (tr u locals) l 0 s) = Some (es, s') ->
    forall x, In x (flat_map now l) -> In x locals -> In x (flat_map nows es).
  Proof.
    induction 1 as [|e l H _ IH]; intros s es s' E x I J; [destruct I|]. cbn [tr_elems] in E.
    apply obind_some in E. destruct E as ((e1, s1) & E1 & E). apply obind_some in E. destruct E as ((l1, s2) & E2 & E). cbn in E. injection E as <- <-.
    cbn [flat_map] in *. rewrite in_app_iff in *. destruct I as [I|I]; [left; eapply H; eauto|right; eapply IH; eauto].
  Qed.
  Lemma nows_paren : forall es b, nows (paren es b) = flat_map nows es.
  Proof. intros [|e [|e' l]] []; cbn; rewrite ?app_nil_r; auto. Qed.

  Lemma keeps_left : forall {O} (compose : O -> expr -> expr -> expr), (forall o a b, nows (compose o a b) = nows a ++ nows b) ->
    forall l, Forall (fun p => keeps (snd p)) l -> forall acc s r s', result (tr_left (tr u locals) compose acc l 0 s) = Some (r, s') ->
    forall x, In x (nows acc) \/ In x (flat_map (fun p => now (snd p)) l) -> In x locals -> In x (nows r).
  Proof.
    intros O compose Hc. induction 1 as [|[o e] l H _ IH]; intros acc s r s' E x I J; cbn [tr_left] in E.
    - cbn in E. injection E as <- <-. destruct I as [I|[]]. auto.
    - apply obind_some in E. destruct E as ((e1, s1) & E1 & E). eapply IH; [exact E| |auto].
      rewrite Hc, in_app_iff. cbn [flat_map snd] in I. rewrite in_app_iff in I. destruct I as [I|[I|I]]; auto.
      left. right. eapply H; eauto.
  Qed.

  Lemma keeps_then : forall compose, (forall d i a b s, nows (fst (compose d i a b s)) = nows a ++ nows b) ->
    forall l, Forall keeps l -> forall i s o s', result (tr_right (tr u locals) (fun d _ => d) compose i l 0 s) = Some (o, s') ->
    forall x, In x (flat_map now l) -> In x locals -> exists r, o = Some r /\ In x (nows r).
  Proof.
    intros compose Hc. induction 1 as [|e l H _ IH]; intros i s o s' E x I J; [destruct I|]. cbn [tr_right] in E.
    apply obind_some in E. destruct E as ((o1, s1) & E1 & E). apply obind_some in E. destruct E as ((e1, s2) & E2 & E).
    cbn [flat_map] in I. rewrite in_app_iff in I. destruct o1 as [after|].
    - pose proof (Hc 0 i e1 after s2) as Hn. destruct (compose 0 i e1 after s2) as (r, s3). cbn in E, Hn. injection E as <- <-.
      exists r. split; auto. rewrite Hn, in_app_iff. destruct I as [I|I]; [left; eapply H; eauto|right].
      destruct (IH _ _ _ _ E1 x I J) as (r' & Er & Ir). injection Er as <-. auto.
    - cbn in E. injection E as <- <-. exists e1. split; auto. destruct I as [I|I]; [eapply H; eauto|].
      destruct (IH _ _ _ _ E1 x I J) as (r' & Er & Ir). discriminate.
  Qed.

  Lemma tr_keeps : forall e, keeps e.
  Proof.
    intros e. induction e using sexpr_ind'; intros s e' s' E y I J; cbn [tr] in E; cbn [now] in I; try (destruct I; fail).
    - destruct I as [->|[]]. cbn in E. injection E as <- <-. rewrite tr_var_local by auto. simpl. auto.
    - apply obind_some in E. destruct E as ((es, s1) & E1 & E). cbn in E. injection E as <- <-. rewrite nows_paren. eapply keeps_elems; eauto.
    - apply obind_some in E. destruct E as ((es, s1) & E1 & E). cbn in E. injection E as <- <-. cbn [nows]. rewrite nows_paren. eapply keeps_elems; eauto.
    - apply obind_some in E. destruct E as ((es, s1) & E1 & E). cbn in E. injection E as <- <-. cbn [nows]. eapply IHe; eauto.
    - apply obind_some in E. destruct E as ((es, s1) & E1 & E). cbn in E. injection E as <- <-. cbn [nows]. eapply IHe; eauto.
    - apply obind_some in E. destruct E as ((c', s1) & E1 & E). apply obind_some in E. destruct E as ((a', s2) & E2 & E).
      apply obind_some in E. destruct E as ((b', s3) & E3 & E). cbn in E. injection E as <- <-. cbn [nows]. rewrite !in_app_iff in *.
      destruct I as [I|[I|I]]; [left; eapply IHe1|right; left; eapply IHe2|right; right; eapply IHe3]; eauto.
    - apply obind_some in E. destruct E as ((c', s1) & E1 & E). apply obind_some in E. destruct E as ((a', s2) & E2 & E).
      apply obind_some in E. destruct E as ((b', s3) & E3 & E). cbn in E. injection E as <- <-. cbn [nows]. rewrite !in_app_iff in *.
      destruct I as [I|[I|I]]; [left; eapply IHe1|right; left; eapply IHe2|right; right; eapply IHe3]; eauto.
    - apply obind_some in E. destruct E as ((a', s1) & E1 & E). rewrite in_app_iff in I.
      eapply (keeps_left EBin); [reflexivity|eassumption|exact E| |auto]. destruct I as [I|I]; auto. left. eapply IHe; eauto.
    - apply obind_some in E. destruct E as ((a', s1) & E1 & E). rewrite in_app_iff in I.
      destruct l as [|[o1 e1] [|[o2 e2] l]].
      + cbn in E. injection E as <- <-. destruct I as [I|[]]. eapply IHe; eauto.
      + apply obind_some in E. destruct E as ((b', s2) & E2 & E). cbn in E. injection E as <- <-. cbn [nows flat_map snd] in *. rewrite app_nil_r in I. rewrite in_app_iff.
        match goal with X : Forall _ _ |- _ => inversion X; subst end. destruct I as [I|I]; [left; eapply IHe; eauto|right; match goal with X : keeps _ |- _ => eapply X; eauto end].
      + apply obind_some in E. destruct E as ((b', s2) & E2 & E). apply obind_some in E. destruct E as ((c', s3) & E3 & E). discriminate.
    - apply obind_some in E. destruct E as ((a', s1) & E1 & E). rewrite in_app_iff in I.
      eapply (keeps_left EClock); [reflexivity|eassumption|exact E| |auto]. destruct I as [I|I]; auto. left. eapply IHe; eauto.
    - apply obind_some in E. destruct E as ((o, s1) & E1 & E). apply obind_some in E. destruct E as ((e1, s2) & E2 & E).
      assert (E2' : result (tr u locals e 0 s1) = Some (e1, s2)) by (destruct u; exact E2).
      pose proof (IHe _ _ _ E2' y I J) as K. destruct o as [after|]; cbn in E.
      + destruct u; cbn in E; injection E as <- <-; cbn [nows]; auto. apply in_app_iff. auto.
      + injection E as <- <-. auto.
    - assert (Hc : forall d i a b s, nows (fst ((if u then then_flips else later) d i a b s)) = nows a ++ nows b) by (destruct u; reflexivity).
      apply (chain_right (f := tr u locals) (fun d _ => d)) in E.
      destruct (keeps_then _ Hc (e :: l) (Forall_cons _ IHe H) _ _ _ _ E y I J) as (r & Er & Ir). injection Er as <-. auto.
  Qed.
End Tr.

(** ** Positions of the definitions *)
Fixpoint index (x : ident) (l : list stmt) : nat :=
  match l with
  | [] => 0
  | s :: l => if Nat.eqb (stmt_count x s) 0 then S (index x l) else 0
  end.
Lemma index_unique : forall x l, definitions x l = 1 -> forall n s, nth_error l n = Some s -> stmt_count x s <> 0 -> index x l = n.
Proof.
  intros x. induction l as [|s l IH]; intros D n s' E C; [destruct n; discriminate|].
  change (stmt_count x s + definitions x l = 1) in D. cbn [index].
  assert (Z : definitions x l = 0 -> forall m w, nth_error l m = Some w -> stmt_count x w = 0).
  { clear. induction l as [|a l IH]; intros D m w E; [destruct m; discriminate|]. change (stmt_count x a + definitions x l = 0) in D.
    destruct m; cbn in E; [injection E as <-; lia|eapply IH; eauto; lia]. }
  destruct n as [|n]; cbn in E.
  - injection E as <-. destruct (Nat.eqb_spec (stmt_count x s) 0); [contradiction|auto].
  - destruct (Nat.eqb_spec (stmt_count x s) 0) as [Q|Q].
    + f_equal. eapply IH; eauto. lia.
    + exfalso. apply C. eapply Z; eauto. lia.
Qed.
Lemma definitions_perm : forall x l l', Permutation l l' -> definitions x l = definitions x l'.
Proof. induction 1; unfold definitions in *; cbn [fold_right]; lia. Qed.

Lemma definitions_none : forall x l, definitions x l = 0 -> forall m w, nth_error l m = Some w -> stmt_count x w = 0.
Proof.
  intros x. induction l as [|a l IH]; intros D m w E; [destruct m; discriminate|]. change (stmt_count x a + definitions x l = 0) in D.
  destruct m; cbn in E; [injection E as <-; lia|eapply IH; eauto; lia].
Qed.
Lemma node_once : forall nd nd' x, node_causality nd = inl nd' -> definitions x (n_stmts nd) <= 1.
Proof.
  intros nd nd' x H. apply node_causality_inv in H. destruct H as [H _].
  assert (X : exists out, schedule stmt reference reference_eqb stmt_provides stmt_requires
          (map (fun x => RLocal (v_name x)) (n_inputs nd)) (n_stmts nd)
          (map (fun x => RLocal (v_name x)) (n_locals nd ++ n_outputs nd)) = inl out) by eauto.
  apply (schedule_iff _ reference_eqb_spec) in X. destruct X as ([ND Dj] & Co & _).
  rewrite definitions_count. apply NoDup_count_occ. auto.
Qed.

(** The variables of a source pattern. *)
Notation binds t := (target_vars (tr_target t)).

Lemma source_order : forall o sn nd nd0 stmts, passed o sn nd nd0 stmts ->
  exists rank : ident -> nat,
  (forall t e, In (XDef t e) (s_defs sn) -> forall x y, In x (now e) -> In x (node_vars sn) -> ~ In x (declared (s_inputs sn)) ->
     In y (binds t) -> rank x < rank y) /\
  (forall x, In x (node_vars sn) -> ~ In x (declared (s_inputs sn)) -> exists t e, In (XDef t e) (s_defs sn) /\ In x (binds t)).
Proof.
  intros o sn nd nd0 stmts Pa. exists (fun x => index x stmts).
  pose proof (passed_names _ _ _ _ _ Pa) as (N1 & N2 & N3 & N4 & N5).
  destruct Pa as [T0 C Pm K Kc En Ei Eo El Eb Er Ef Nv Ti].
  destruct (node_definitions _ _ C) as [Di Df]. pose proof (node_order _ _ C) as Ord. cbn [n_stmts] in Ord.
  assert (Un : forall z, In z (node_vars sn) -> ~ In z (declared (s_inputs sn)) -> definitions z stmts = 1).
  { intros z Iz Ni.
    assert (Ex : exists w, In w (n_outputs nd0 ++ n_locals nd0) /\ v_name w = z).
    { rewrite <- N5 in Iz. unfold all_vars in Iz. apply in_map_iff in Iz. destruct Iz as (w & Ew & Iw).
      exists w. split; auto. apply in_app_iff in Iw. destruct Iw as [Iw|Iw]; auto.
      exfalso. apply Ni. rewrite <- N1, Ei. rewrite <- Ew. apply in_map. auto. }
    destruct Ex as (w & Iw & <-). rewrite (definitions_perm _ _ _ Pm). auto. }
  assert (Def : forall z, definitions z stmts = 1 -> exists n s, nth_error stmts n = Some s /\ stmt_count z s <> 0).
  { clear. intros z. induction stmts as [|s l IH]; intros D; [discriminate|]. change (stmt_count z s + definitions z l = 1) in D.
    destruct (stmt_count z s) eqn:Q.
    - destruct (IH D) as (n & s' & E & Cs). exists (S n), s'. auto.
    - exists 0, s. split; auto. congruence. }
  (* a variable needed now is defined before *)
  assert (Bef : forall n s e, nth_error stmts n = Some s -> stmt_value s = Some e -> forall x, In x (nows e) ->
      forall k s', nth_error stmts k = Some s' -> stmt_count x s' <> 0 -> k < n).
  { intros n. induction n as [n IHn] using lt_wf_ind. intros s e Es Ve x I k s' Ek Cs.
    destruct (Ord _ _ Es) as [O1 O2]. destruct (nows_split _ _ I) as [R|(id & i & m & R & J)].
    - eapply O1; eauto. exists e. auto.
    - assert (Is : In s (n_stmts nd0)) by (apply (Permutation_in _ Pm); eapply nth_error_In; eauto).
      assert (Ie : In e (stmt_exprs s)) by (destruct s as [? ?|?|? v cc|? ?]; [| |destruct v, cc|]; cbn in Ve; inversion Ve; subst; simpl; auto).
      destruct (read_stmt _ _ _ T0 _ _ Is Ie _ _ _ R) as [_ S0].
      apply (Permutation_in _ (Permutation_sym Pm)) in S0. apply In_nth_error in S0. destruct S0 as (n' & En').
      assert (L : n' < n) by (eapply O2; [|exact En']; exists e; split; auto; eapply reads_fetches; eauto).
      assert (k < n') by (eapply (IHn n' L); [exact En'|reflexivity|exact J|exact Ek|exact Cs]). lia. }
  split.
  - intros t e I x y Ix Vx Nx Iy.
    destruct (forall2_in_l _ _ _ (td_sourced _ _ _ T0) _ I) as (i' & I' & (st & st' & e' & bl & Tr & Ebl)). rewrite N5 in Tr.
    destruct Tr as [Tr ->]. apply filter_In in I'. destruct I' as [I' _]. apply (Permutation_in _ (Permutation_sym Pm)) in I'.
    apply In_nth_error in I'. destruct I' as (n & E').
    pose proof (tr_keeps _ _ _ _ _ _ Tr x Ix Vx) as Kx.
    destruct (Def x (Un x Vx Nx)) as (k & s' & Ek & Ck). rewrite (index_unique _ _ (Un x Vx Nx) _ _ Ek Ck).
    assert (Cy : stmt_count y (SLet (tr_target t) e') <> 0).
    { cbn. rewrite target_count_vars. apply (count_occ_In string_dec) in Iy. lia. }
    assert (Vy : definitions y stmts = 1).
    { assert (definitions y stmts <= 1).
      { rewrite (definitions_perm _ _ _ Pm). eapply node_once; eauto. }
      assert (definitions y stmts <> 0); [|lia]. intros Z. apply Cy. eapply definitions_none; eauto. }
    rewrite (index_unique _ _ Vy _ _ E' Cy). eapply Bef; eauto. reflexivity.
  - intros x Vx Nx. destruct (Def x (Un x Vx Nx)) as (n & s & Es & Cs).
    assert (So : sourced s = true) by (destruct s; simpl in *; auto; congruence).
    assert (Is : In s (filter sourced (n_stmts nd0))) by (apply filter_In; split; auto; apply (Permutation_in _ Pm); eapply nth_error_In; eauto).
    destruct (forall2_in_r _ _ _ (td_sourced _ _ _ T0) _ Is) as (i & Ii & (st & st' & e' & bl & Tr & Ebl)).
    destruct i as [t e|e]; destruct Tr as [Tr ->]; [|simpl in Cs; congruence].
    exists t, e. split; auto. cbn in Cs. rewrite target_count_vars in Cs. apply (count_occ_In string_dec). lia.
Qed.
