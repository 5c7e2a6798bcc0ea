(** Nodes accepted by the passes are well typed. *)
From Coq Require Import String List ZArith Bool Arith Lia Permutation.
From Verif Require Import Model.Base Model.Scalar Model.Value Model.Ast Model.Errors Model.Interp Model.Options Model.Surface Model.Translate
  Model.Graph Model.Causality Model.Typecheck Model.Clockcheck Model.Positivity
  Spec.GraphSpec Spec.StepSpec Spec.CausalitySpec Spec.CoreSem Spec.OrderSpec Spec.TranslateSpec Spec.TypeSpec Spec.DepthSpec
  Proofs.AstInd Proofs.OutBasics Proofs.GraphProofs Proofs.CausalityProofs Proofs.CoreProofs Proofs.CoreNode Proofs.TranslateStruct Proofs.NodeWf
  Proofs.DeepIds Proofs.TypeEval Proofs.TypeExec Proofs.TypeProg Proofs.Unify Proofs.TypeInfer Proofs.Depths.
Import ListNotations.

(** ** Depths *)
Lemma set_depth_in : forall m l v', In v' (map (set_depth m) l) -> exists v, In v l /\ v' = set_depth m v.
Proof. intros m l v' I. apply in_map_iff in I. destruct I as (v & <- & I). eauto. Qed.

Lemma clocked_sourced : forall l l', Forall2 clocked_as l l' -> filter sourced l' = filter sourced l.
Proof.
  induction 1 as [|s s' l l' C F IH]; auto. cbn. rewrite IH. inversion C; subst; auto.
Qed.

Lemma perm_sourced : forall l l', Permutation l l' -> Permutation (filter sourced l) (filter sourced l').
Proof.
  induction 1; cbn; auto.
  - destruct (sourced x); auto.
  - destruct (sourced x), (sourced y); auto. constructor.
  - eapply perm_trans; eauto.
Qed.

Lemma translates_exprs : forall u locals blocks l l' k x, Forall2 (translates u locals blocks) l l' -> k = (if u then 0 else 1) -> In x locals ->
  forall n, uses (flat_map stmt_exprs l') x n <-> exists e, In e (map (fun i => match i with XDef _ e => e | XAssert e => e end) l) /\ under k x e n.
Proof.
  intros u locals blocks l l' k x F K Hx n. induction F as [|i i' l l' T F IH]; cbn [map flat_map].
  - split; [intros (e & [] & _)|intros (e & [] & _)].
  - assert (H : uses (stmt_exprs i') x n <-> under k x (match i with XDef _ e => e | XAssert e => e end) n).
    { destruct T as (s & s' & e' & bl & T & _). destruct i as [t e|e]; destruct T as [T ->]; cbn [stmt_exprs];
        pose proof (tr_placed u locals k K x Hx e 0 s e' s' T n) as P;
        (split; [intros (c & [<-|[]] & O); apply P in O; destruct O as (j & U & ->); auto|intros U; exists e'; split; [cbn; auto|]; apply P; eauto]). }
    split.
    + intros (e & I & O). apply in_app_iff in I. destruct I as [I|I].
      * eexists. split; [left; reflexivity|]. apply H. exists e; auto.
      * destruct (proj1 IH) as (e' & I' & U); [exists e; auto|]. exists e'. cbn; auto.
    + intros (e & [<-|I] & U).
      * apply H in U. destruct U as (c & J & O). exists c. rewrite in_app_iff. auto.
      * destruct (proj2 IH) as (c & J & O); [eauto|]. exists c. rewrite in_app_iff. auto.
Qed.

Lemma pos_node_some : forall nd nd', result (pos_node nd) = Some nd' -> exists m, result (pos_stmts (n_stmts nd) []) = Some m /\
  all_vars nd' = map (set_depth m) (all_vars nd) /\ n_stmts nd' = n_stmts nd.
Proof.
  intros nd nd' H. unfold pos_node in H. inv_out. exists r. repeat split; auto. unfold all_vars. cbn. rewrite !map_app. auto.
Qed.
Lemma pos_node_all : forall nd nd', result (pos_node nd) = Some nd' -> exists m, result (pos_stmts (n_stmts nd) []) = Some m /\
  nd' = mkNode (n_name nd) (map (set_depth m) (n_inputs nd)) (map (set_depth m) (n_outputs nd))
          (map (set_depth m) (n_locals nd)) (n_blocks nd) (n_stmts nd) (n_regs nd) (n_flips nd).
Proof. intros nd nd' H. unfold pos_node in H. inv_out. eauto. Qed.

(** The depth recorded for each variable. *)
Theorem node_depths : forall o sn nd, compiled_node o sn nd -> forall v, In v (all_vars nd) ->
  let k := if o_universal o then 0 else 1 in
  (forall e n, In e (source_exprs sn) -> under k (v_name v) e n -> n <= v_depth v) /\
  (v_depth v = 0 \/ exists e, In e (source_exprs sn) /\ under k (v_name v) e (v_depth v)).
Proof.
  intros o sn nd H v Iv k. pose proof H as (nd0 & nd1 & nd2 & nd3 & gl & fn & gens & H0 & H1 & H2 & H3 & H4).
  destruct (compiled_passed _ _ _ H) as (nd0' & stmts & Pa). destruct Pa as [T C P K _ _ Ei Eo El _ _ _ _].
  destruct (pos_node_some _ _ H4) as (m & Hm & Ev & Es). rewrite Ev in Iv. apply set_depth_in in Iv. destruct Iv as (w & Iw & ->).
  apply pos_stmts_deepest in Hm. rewrite <- Es in Hm. cbn [set_depth v_name v_depth].
  assert (U : forall x n, In x (map v_name (all_vars nd0')) -> (uses (flat_map stmt_exprs (filter sourced (n_stmts nd))) x n <->
    exists e, In e (source_exprs sn) /\ under k x e n)).
  { intros x n Hx. rewrite (clocked_sourced _ _ K).
    rewrite <- (translates_exprs _ _ _ _ _ k x (td_sourced _ _ _ T) eq_refl Hx n).
    pose proof (Permutation_flat_map stmt_exprs (perm_sourced _ _ P)) as Q.
    split; intros (e & I & O); exists e; split; auto.
    - apply (Permutation_in _ Q I).
    - apply (Permutation_in _ (Permutation_sym Q) I). }
  assert (Hx : In (v_name w) (map v_name (all_vars nd0'))).
  { assert (E : map v_name (all_vars nd0') = map v_name (all_vars nd3)).
    { transitivity (map v_name (all_vars nd)); [unfold all_vars; rewrite !map_app, Ei, Eo, El; auto|]. rewrite Ev. apply set_depth_name. }
    rewrite E. apply in_map. auto. }
  split.
  - intros e n I Un. destruct (dd_new _ _ _ Hm (v_name w) n) as (n' & L & Le); [apply U; eauto|]. rewrite L. auto.
  - destruct (lookup (v_name w) m) as [d|] eqn:L; auto. right.
    destruct (dd_only _ _ _ Hm _ _ L) as [X|X]; [discriminate|]. apply U; auto.
Qed.

(** ** Type checks *)
Lemma tc_vars_bool : forall l vars vars', result (tc_vars l vars) = Some (true, vars') ->
  forall v k x, In v l -> v_clk v = CExplicit k x -> lookup x vars = Some BBool \/ exists w, In w l /\ v_name w = x /\ v_base w = BBool.
Proof.
  induction l as [|v l IH]; intros vars vars' H w k x I C; [destruct I|]. cbn [tc_vars] in H.
  apply obind_some in H. destruct H as (fresh & E & H).
  apply obind_some in H. destruct H as (ck & E0 & H). apply attempt_some in E0.
  apply obind_some in H. destruct H as ((rest, vs) & R & H). inversion H as [[H1 H2]].
  apply andb_prop in H1. destruct H1 as [H1 ->]. apply andb_prop in H1. destruct H1 as [_ Ok].
  destruct ck as [u|]; [|discriminate]. destruct I as [<-|I].
  - rewrite C in E0. cbn in E0. destruct (lookup x vars) as [b|] eqn:L; [|discriminate]. apply is_bool_some in E0. subst. auto.
  - destruct (IH _ _ R _ _ _ I C) as [L|(w' & I' & N & B)].
    + cbn in L. destruct (String.eqb_spec x (v_name v)); [|auto]. subst. inversion L. right. exists v. cbn; auto.
    + right. exists w'. cbn; auto.
Qed.

Lemma tc_blocks_some : forall funs l gs, result (tc_blocks funs l) = Some gs -> Forall2 (fun f g => lookup f funs = Some g) l gs.
Proof.
  induction l as [|f l IH]; intros gs H; cbn [tc_blocks] in H; [inv_out; constructor|].
  destruct (lookup f funs) eqn:L; inv_out. constructor; auto.
Qed.

Lemma vars_occur : forall e x d, In (x, d) (vars_of e) -> occurs (EVar x d) e.
Proof.
  intros e. induction e using expr_ind'; intros y d' I; cbn [vars_of] in I; rewrite ?in_app_iff in I;
    repeat match goal with H : _ \/ _ |- _ => destruct H end; try (destruct I; fail);
    try (eapply occ_child; [|eauto]; cbn; auto; fail).
  - destruct I as [I|[]]. inversion I; subst. constructor.
  - apply in_flat_map in I. destruct I as (e & I & J). rewrite Forall_forall in H. eapply occ_child; [|eapply H; eauto]. auto.
Qed.

Lemma vars_read : forall e x, In (x, 0) (vars_of e) -> reads_now x e.
Proof.
  intros e. induction e using expr_ind'; intros y I; cbn [vars_of] in I; rewrite ?in_app_iff in I;
    repeat match goal with H : _ \/ _ |- _ => destruct H end; try (destruct I; fail);
    try (econstructor; eauto; fail).
  - destruct I as [I|[]]. inversion I; subst. constructor.
  - apply in_flat_map in I. destruct I as (e & I & J). rewrite Forall_forall in H. eapply rn_tuple; [|eapply H; eauto]. auto.
Qed.

Lemma typed_var : forall G e t x d, has_type G e t -> occurs (EVar x d) e -> exists b, x_vars G x = Some b.
Proof. intros G e t x d T O. destruct (has_type_occurs _ _ _ _ O T) as (t' & T'). inversion T'; subst. eauto. Qed.

Lemma now_ordered_nth : forall l bound,
  (forall k s x, nth_error l k = Some s -> In (x, 0) (flat_map vars_of (computed s)) ->
     In x bound \/ exists k' s', k' < k /\ nth_error l k' = Some s' /\ In x (targets s')) -> now_ordered bound l.
Proof.
  induction l as [|s l IH]; intros bound H; cbn [now_ordered]; auto. split.
  - intros x I. destruct (H 0 s x eq_refl I) as [K|(k' & s' & L & _)]; auto. lia.
  - apply IH. intros k s' x E I. rewrite in_app_iff. destruct (H (S k) s' x E I) as [K|(k' & s2 & L & E' & I')]; auto.
    destruct k' as [|k']; cbn in E'; [inversion E'; subst; auto|]. right. exists k', s2. repeat split; auto. lia.
Qed.

Lemma typed_exprs : forall G s e, stmt_typed G s -> In e (computed s) -> exists t, has_type G e t.
Proof.
  intros G s e T I. inversion T; subst; cbn in I; try (destruct I as [<-|[]]; eauto).
  destruct I as [<-|I]; eauto. destruct v; [|destruct I]. destruct I as [<-|[]]. cbn in *. eauto.
Qed.

Lemma lookup_rev : forall {A} x (l : list (ident * A)), NoDup (map fst l) -> lookup x (rev l) = lookup x l.
Proof.
  induction l as [|[y a] l IH]; cbn; intros N; auto. inversion N; subst.
  assert (App : forall l1 l2, lookup x (l1 ++ l2) = match lookup x l1 with Some a => Some a | None => lookup (A := A) x l2 end).
  { clear. induction l1 as [|[z b] l1 IH]; cbn; intros l2; auto. destruct (String.eqb x z); auto. }
  rewrite App, IH by auto. cbn. destruct (String.eqb_spec x y).
  - subst. destruct (lookup y l) eqn:L; auto. exfalso. apply H1. assert (L' : lookup y l <> None) by congruence.
    destruct (in_dec string_dec y (map fst l)); auto. exfalso. apply L', lookup_none. auto.
  - destruct (lookup x l); auto.
Qed.

Section NodeTyped.
  Variable gl : ident -> option base.
  Variable F : signature.
  Variable globals : list (ident * base).
  Variable funs : list (ident * fsig).
  Hypothesis Hgl : forall x b, lookup x globals = Some b -> gl x = Some b.
  Variables (o : node_opts) (sn : snode) (nd0 nd1 nd2 nd3 nd : node) (gens : list (option (list base))).
  Hypothesis H0 : result (tr_node o sn) = Some nd0.
  Hypothesis H1 : node_causality nd0 = inl nd1.
  Hypothesis H2 : result (tc_node globals funs o nd1) = Some (nd2, gens).
  Hypothesis H3 : result (kc_node nd2) = Some nd3.
  Hypothesis H4 : result (pos_node nd3) = Some nd.
  Hypothesis Hf : forall f g, In f (n_blocks nd0) -> lookup f funs = Some g -> exists ins outs, F f = Some (ins, outs) /\
    g_ins g = map v_base ins /\ g_outs g = map v_base outs.
  Lemma node_typed : exists sg, loose_node gl F nd sg /\
    (o_universal o = false \/
     (well_ordered (n_stmts nd) /\ Forall (fun t => match t with Some t => no_single t | None => True end) (n_regs nd)) ->
     typed_node gl F nd sg).
  Proof.
    assert (Cn : compiled_node o sn nd) by (unfold compiled_node; eauto 15).
    pose proof (tr_node_translated _ _ _ H0) as T. pose proof (tr_node_deep _ _ _ H0) as [Dr Dc].
    destruct (node_stmts_perm _ _ H1) as [Pm E1]. pose proof (node_order _ _ H1) as Ord. pose proof (node_definitions _ _ H1) as [Di Do].
    destruct (compiled_passed _ _ _ Cn) as (nd0' & st' & Pa). pose proof (passed_wf _ _ _ _ _ Pa) as Wf. clear Pa nd0' st'.
    set (stmts := n_stmts nd1) in *. clearbody stmts. subst nd1. cbn [n_stmts] in Ord, Pm.
    unfold tc_node in H2. cbn [n_inputs n_outputs n_locals n_stmts n_name n_blocks n_regs n_flips] in H2.
    apply obind_some in H2. destruct H2 as (u1 & X1 & Y2).
    apply obind_some in Y2. destruct Y2 as (u2 & X2 & Y2).
    apply obind_some in Y2. destruct Y2 as ((ok, vars) & X3 & Y2).
    apply obind_some in Y2. destruct Y2 as (u3 & X4 & Y2). destruct ok; [|discriminate].
    pose proof (tc_vars_bool _ _ _ X3) as Bo. apply tc_vars_ok in X3. destruct X3 as (Nv & _ & Ev & _).
    apply obind_some in Y2. destruct Y2 as (bl & Xb & Y2). apply tc_blocks_some in Xb.
    apply obind_some in Y2. destruct Y2 as (sr & Xs & Y2). apply obind_some in Y2. destruct Y2 as (sr' & Xn & Y2).
    apply need_some in Xn. destruct sr as [s|]; [injection Xn as <-|discriminate Xn]. inversion Y2; subst nd2 gens; clear Y2.
    unfold kc_node in H3. cbn [n_inputs n_outputs n_locals n_stmts n_name n_blocks n_regs n_flips] in H3.
    apply obind_some in H3. destruct H3 as (u4 & X5 & Y3). apply obind_some in Y3. destruct Y3 as (ksr & Xk & Y3).
    apply obind_some in Y3. destruct Y3 as (ks & Xn & Y3). apply need_some in Xn. destruct ksr as [ks'|]; [injection Xn as <-|discriminate Xn].
    apply obind_some in Y3. destruct Y3 as (final & Xf & Y3). inversion Y3; subst nd3; clear Y3. apply omap_some in Xf.
    destruct (pos_node_all _ _ H4) as (m & Hm & End). cbn [n_inputs n_outputs n_locals n_stmts n_name n_blocks n_regs n_flips] in Hm, End.
    rewrite app_nil_r in Ev. set (vs := n_inputs nd0 ++ n_outputs nd0 ++ n_locals nd0) in *.
    assert (Ea : all_vars nd = map (set_depth m) vs) by (rewrite End; unfold all_vars, vs; cbn; rewrite !map_app; auto).
    (* recorded registers and instances *)
    pose proof (stmts_record _ _ _ _ Xs) as [Rr Rg]. cbn [tyst0 y_regs y_gens map fst] in Rr, Rg. rewrite app_nil_r in Rr, Rg.
    pose proof (Permutation_flat_map stmt_exprs (perm_sourced _ _ Pm)) as Psrc.
    rewrite (Permutation_flat_map deep_regs Psrc), Dr in Rr. rewrite (Permutation_flat_map deep_calls Psrc), Dc in Rg.
    assert (Nr : NoDup (map fst (y_regs s))) by (eapply perm_nodup_seq; eauto).
    assert (Ng : NoDup (map fst (y_gens s))) by (eapply perm_nodup_seq; eauto).
    set (sg := map (fun id => match lookup_nat id (y_gens s), nth_error bl id with
                              | Some l, Some f => subst_of (g_params f) l | _, _ => fun _ => BInt end) (seq 0 (length (n_blocks nd0)))).
    exists sg. set (G := node_ctx gl F nd sg).
    assert (NvS : NoDup (map v_name (all_vars nd))) by (rewrite Ea, set_depth_name; auto).
    assert (Hv : forall x b, lookup x vars = Some b -> x_vars G x = Some b).
    { intros x b L. cbn. unfold var_types. rewrite Ea, map_map. cbn. rewrite Ev in L. rewrite lookup_rev in L; auto. rewrite map_map. cbn. auto. }
    assert (Hva : forall x b, x_vars G x = Some b -> exists v, In v vs /\ v_name v = x /\ v_base v = b).
    { intros x b L. cbn in L. unfold var_types in L. rewrite Ea, map_map in L. cbn in L. clear -L.
      induction vs as [|v vs IH]; cbn in L; [discriminate|]. destruct (String.eqb_spec x (v_name v)).
      - inversion L; subst. exists v. cbn; auto.
      - destruct (IH L) as (w & A & B). exists w. cbn; auto. }
    assert (Hbv : forall v, In v vs -> x_vars G (v_name v) = Some (v_base v)).
    { intros v I. cbn. change (v_name v) with (v_name (set_depth m v)). change (v_base v) with (v_base (set_depth m v)).
      apply var_types_in; auto. rewrite Ea. apply in_map. auto. }
    assert (Kn : known (mkTctx globals vars bl) G s).
    { split.
      - intros id t I. cbn. rewrite End. cbn [n_regs].
        assert (J : In id (seq 0 (length (n_regs nd0)))) by (eapply Permutation_in; [exact Rr|]; apply (in_map fst) in I; auto).
        apply in_seq in J. rewrite nth_error_map.
        rewrite (nth_error_nth' (seq 0 (length (n_regs nd0))) 0), seq_nth by (rewrite ?seq_length; lia). cbn. apply lookup_nat_in; auto.
      - intros id l f I Ef. cbn [c_blocks] in Ef. cbn. unfold block_types. rewrite End. cbn [n_blocks].
        destruct (forall2_nth _ _ _ Xb _ _ Ef) as (g & Eg & Lg). rewrite Eg.
        assert (J : id < length (n_blocks nd0)) by (apply nth_error_Some; congruence).
        unfold sg. rewrite nth_error_map.
        rewrite (nth_error_nth' (seq 0 (length (n_blocks nd0))) 0), seq_nth by (rewrite ?seq_length; lia). cbn.
        rewrite (proj2 (lookup_nat_in _ _ _ Ng) I), Ef.
        destruct (Hf g f (nth_error_In _ _ Eg) Lg) as (nd' & p' & -> & -> & ->). reflexivity. }
    destruct (stmts_infer (mkTctx globals vars bl) G Hv Hgl _ _ _ Xs) as [_ St]. specialize (St Kn).
    (* clocks *)
    assert (Kb : bool_kst G ks').
    { eapply kc_stmts_bool; [|exact St|exact Xk|intros ? ? []].
      intros x c L. rewrite lookup_rev in L by (rewrite map_map; auto).
      assert (I : exists v, In v vs /\ v_clk v = c).
      { clear -L. induction vs as [|v l IH]; cbn in L; [discriminate|]. destruct (String.eqb x (v_name v)).
        - inversion L. exists v. cbn; auto.
        - destruct (IH L) as (w & A & B). exists w. cbn; auto. }
      destruct I as (v & I & <-). destruct (v_clk v) as [p y| |] eqn:Ck; cbn; auto.
      destruct (Bo _ _ _ I Ck) as [Z|(w & Iw & <- & Bw)]; [discriminate|].
      assert (Z : bool_var G (v_name w)) by (unfold bool_var; rewrite <- Bw; auto). destruct p; cbn; auto. }
    (* source expressions and what occurs in them *)
    assert (Src : forall e, In e (flat_map stmt_exprs (filter sourced (n_stmts nd0))) -> exists t, has_type G e t).
    { intros e I. apply (Permutation_in _ (Permutation_sym Psrc)) in I. apply in_flat_map in I. destruct I as (i & I & J).
      apply filter_In in I. destruct I as [I S]. rewrite Forall_forall in St. eapply typed_exprs; [apply St; eauto|auto]. }
    assert (Fin : forall s', In s' final -> exists i, In i stmts /\ result (fill_clock ks' i) = Some s').
    { intros s' I. apply In_nth_error in I. destruct I as (k & I). destruct (forall2_nth _ _ _ Xf _ _ I) as (i & I' & R).
      exists i. split; auto. eapply nth_error_In; eauto. }
    assert (Ty : Forall (stmt_typed G) final).
    { apply Forall_forall. intros s' I. destruct (Fin _ I) as (i & Ii & R).
      pose proof (Permutation_in _ Pm Ii) as Ii0. rewrite Forall_forall in St.
      destruct i as [t e|e|id v c|id n]; cbn [fill_clock] in R.
      - inversion R; subst. apply St; auto.
      - inversion R; subst. apply St; auto.
      - destruct (lookup_nat id ks') as [c'|] eqn:L; inversion R; subst; clear R.
        destruct (td_init_occurs _ _ _ T _ _ _ Ii0) as (n & e & Ie & Oc). destruct (Src _ Ie) as (t & Te).
        destruct (has_type_occurs _ _ _ _ Oc Te) as (t' & Tf).
        assert (Lk : In (id, c') ks').
        { clear -L. induction ks' as [|[a b] ks IH]; cbn in L; [discriminate|]. destruct (Nat.eqb_spec id a); [inversion L; subst; cbn; auto|cbn; auto]. }
        inversion Tf; subst; (eapply st_init; [eassumption|cbn; auto|eapply Kb; eauto]).
      - inversion R; subst. destruct (td_update_occurs _ _ _ T _ _ Ii0) as (i & e & Ie & Oc). destruct (Src _ Ie) as (t & Te).
        destruct (has_type_occurs _ _ _ _ Oc Te) as (t' & Tf). inversion Tf; subst; econstructor; eauto. }
    assert (Tg : forall i s', result (fill_clock ks' i) = Some s' -> targets s' = targets i).
    { intros i s' R. destruct i; cbn [fill_clock] in R; inv_out; auto. destruct (lookup_nat id ks'); inv_out. auto. }
    assert (Tgs : flat_map targets final = flat_map targets stmts).
    { clear -Xf Tg. induction Xf; cbn; auto. rewrite IHXf, (Tg _ _ H). auto. }
    assert (Def : forall v, In v (n_outputs nd0 ++ n_locals nd0) -> In (v_name v) (flat_map targets final)).
    { intros v I. rewrite Tgs. apply Do in I. rewrite definitions_count in I.
      assert (J : In (RLocal (v_name v)) (flat_map stmt_provides (n_stmts nd0))) by (apply (count_occ_In ref_dec); lia).
      apply flat_targets in J. eapply Permutation_in; [apply Permutation_sym, (Permutation_flat_map stmt_targets Pm)|exact J]. }
    assert (Ef : n_stmts nd = final) by (rewrite End; auto).
    assert (NoReg : o_universal o = false -> forall s', In s' final -> stmt_inits s' = [] ).
    { intros U s' I. destruct (Fin _ I) as (i & Ii & R). pose proof (Permutation_in _ Pm Ii) as Ii0.
      pose proof (tr_node_no_regs _ _ _ H0 U) as Nr0. pose proof (td_inits _ _ _ T) as Q. rewrite Nr0 in Q.
      destruct s'; auto. destruct i as [t e|e|id' v' c'|id' n']; cbn [fill_clock] in R; inv_out. exfalso.
      eapply Permutation_in in Q; [exact Q|]. apply in_flat_map. exists (SInit id' v' c'). split; auto. cbn. auto. }
    assert (Rg1 : Forall (fun o => exists t, o = Some t) (n_regs nd)).
    { apply Forall_forall. intros t I. rewrite End in I. cbn in I. apply in_map_iff in I. destruct I as (id & <- & I). apply lookup_nat_some.
      eapply Permutation_in; [apply Permutation_sym; exact Rr|auto]. }
    assert (Bl : length sg = length (n_blocks nd)) by (rewrite End; unfold sg; cbn; rewrite map_length, seq_length; auto).
    assert (Fd : forall g, In g (n_blocks nd) -> exists ins outs, F g = Some (ins, outs)).
    { intros g I. rewrite End in I. cbn in I. pose proof I as I'. apply In_nth_error in I. destruct I as (k & I).
      destruct (forall2_nth_l _ _ _ Xb _ _ I) as (f & _ & Lf). destruct (Hf _ _ I' Lf) as (nd' & p' & E & _). eauto. }
    split; [split; rewrite ?Ef; auto|]. intros Hd.
    assert (Wo : forall k s' e x, nth_error final k = Some s' -> In e (computed s') -> reads_now x e ->
      forall k' s2, nth_error final k' = Some s2 -> stmt_count x s2 <> 0 -> k' < k).
    { destruct Hd as [U|[W _]].
      - intros k s' e x E I R k' s2 E2 C. pose proof (NoReg U _ (nth_error_In _ _ E)) as N1.
        destruct (forall2_nth _ _ _ Xf _ _ E) as (i & Ei & Ri). destruct (forall2_nth _ _ _ Xf _ _ E2) as (i2 & Ei2 & Ri2).
        eapply (proj1 (Ord k i Ei) x); [|exact Ei2|].
        + exists e. split; auto. destruct i; cbn [fill_clock] in Ri; inv_out; cbn in I |- *;
            try (destruct I as [<-|[]]; auto; fail). destruct (lookup_nat id ks'); inv_out. discriminate.
        + destruct i2; cbn [fill_clock] in Ri2; inv_out; auto. destruct (lookup_nat id ks'); inv_out. auto.
      - rewrite Ef in W. intros k s' e x E I R. apply (proj1 (W k s' e E I)). auto. }
    assert (Vars : forall s' e x d, In s' final -> In e (computed s') -> occurs (EVar x d) e -> exists v, In v vs /\ v_name v = x).
    { intros s' e x d I J Oc. rewrite Forall_forall in Ty. destruct (typed_exprs _ _ _ (Ty _ I) J) as (t & Te).
      destruct (typed_var _ _ _ _ _ Te Oc) as (b & X). destruct (Hva _ _ X) as (v & A & B & _). eauto. }
    split; rewrite ?Ef.
    - exact Ty.
    - rewrite End. cbn [n_inputs]. rewrite set_depth_name. apply now_ordered_nth. intros k s' x E I.
      apply in_flat_map in I. destruct I as (e & I & J). pose proof (nth_error_In _ _ E) as Is.
      destruct (Vars _ _ _ _ Is I (vars_occur _ _ _ J)) as (v & Iv & Nm). unfold vs in Iv. apply in_app_iff in Iv. destruct Iv as [Iv|Iv].
      { left. subst. apply in_map. auto. }
      right. pose proof (Def _ Iv) as Dv. rewrite Nm in Dv. apply in_flat_map in Dv. destruct Dv as (s2 & I2 & Tx).
      apply In_nth_error in I2. destruct I2 as (k' & E2). exists k', s2. repeat split; auto.
      apply (Wo k s' e x E I (vars_read _ _ J) k' s2 E2).
      destruct s2 as [tg e2|e2|? ? ?|? ?]; cbn [targets] in Tx; try (destruct Tx; fail).
      change (target_count x tg <> 0). rewrite target_count_vars. apply (count_occ_In string_dec) in Tx. lia.
    - intros s' x d I J. apply in_flat_map in J. destruct J as (e & J & K). apply vars_occur in K.
      destruct (Vars _ _ _ _ I J K) as (v & Iv & Nm).
      assert (U : uses (flat_map stmt_exprs (filter sourced final)) x (S d)).
      { assert (U0 : uses (flat_map stmt_exprs (filter sourced (n_stmts nd0))) x (S d)).
        { destruct (Fin _ I) as (i & Ii & R). pose proof (Permutation_in _ Pm Ii) as Ii0.
          destruct i as [t e'|e'|id v' c|id n]; cbn [fill_clock] in R.
          - inversion R; subst. destruct J as [<-|[]]. exists e'. split; auto. apply in_flat_map. exists (SLet t e'). cbn. rewrite filter_In. auto.
          - inversion R; subst. destruct J as [<-|[]]. exists e'. split; auto. apply in_flat_map. exists (SAssert e'). cbn. rewrite filter_In. auto.
          - destruct (lookup_nat id ks') as [c'|] eqn:L; inversion R; subst; clear R.
            destruct (td_init_occurs _ _ _ T _ _ _ Ii0) as (n & e0 & Ie & Oc). cbn in J. destruct J as [<-|J].
            + exfalso. apply kc_stmts_none in Xk. destruct Xk as [_ Fo].
              destruct (Fo ltac:(intros ? ? Z; discriminate) _ _ L) as (q & ->).
              destruct q; cbn in K; inversion K as [|? c0 Z1 Z2]; subst; cbn in Z1; try tauto.
              destruct Z1 as [<-|[]]. inversion Z2 as [|? c0 Z3 Z4]; subst. destruct Z3.
            + destruct v' as [v'|]; [|destruct J]. destruct J as [<-|[]]. exists e0. split; auto.
              eapply occurs_trans; [exact K|]. eapply occurs_trans; [|exact Oc]. eapply occ_child; [|constructor]. cbn; auto.
          - inversion R; subst. destruct J as [<-|[]].
            destruct (td_update_occurs _ _ _ T _ _ Ii0) as (i & e0 & Ie & Oc). exists e0. split; auto.
            eapply occurs_trans; [exact K|]. eapply occurs_trans; [|exact Oc]. eapply occ_child; [|constructor]. cbn. apply in_app_iff. cbn; auto. }
        destruct U0 as (e0 & I0 & O0). exists e0. split; auto.
        assert (Fs : filter sourced final = filter sourced stmts).
        { clear -Xf. induction Xf as [|i s' l l' R F IH]; auto. cbn. rewrite IH. destruct i; cbn [fill_clock] in R; inv_out; auto.
          destruct (lookup_nat id ks'); inv_out. auto. }
        rewrite Fs. eapply Permutation_in; [apply Permutation_sym; exact Psrc|auto]. }
      apply pos_stmts_deepest in Hm. destruct (dd_new _ _ _ Hm _ _ U) as (n' & L & Le).
      exists (set_depth m v). rewrite Ea. split; [apply in_map; auto|]. split; auto. cbn. rewrite Nm, L. auto.
    - apply Forall_forall. intros id I. rewrite <- Ef in I. apply (wf_flip_range _ Wf). exact I.
    - apply Forall_forall. intros t I.
      pose proof (proj1 (Forall_forall _ _) Rg1 _ I) as Fl. destruct Fl as (ty & ->). exists ty. split; auto. destruct Hd as [U|[_ W]].
      + exfalso. rewrite End in I. cbn in I. rewrite (tr_node_no_regs _ _ _ H0 U) in I. destruct I.
      + rewrite Forall_forall in W. apply (W _ I).
    - exact NvS.
    - intros v' I. rewrite End in I. cbn in I. rewrite <- map_app in I. apply set_depth_in in I. destruct I as (v & I & ->). cbn. apply Def; auto.
    - exact Bl.
    - exact Fd.
  Qed.
End NodeTyped.
