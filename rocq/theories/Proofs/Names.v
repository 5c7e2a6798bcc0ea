(** Names of the generated code. *)
From Coq Require Import String List ZArith Bool Arith Lia Permutation Ascii DecimalString DecimalNat.
From Verif Require Import Model.Base Model.Scalar Model.Ast Model.Errors Model.Options Model.Interp Model.Surface Model.Translate Model.Typecheck Model.Clockcheck
  Model.Positivity Model.Causality Model.Pipeline Model.Names Spec.StepSpec Spec.CausalitySpec Spec.CoreSem Spec.TranslateSpec Spec.NamesSpec Proofs.AstInd Proofs.OutBasics Proofs.CoreProofs
  Proofs.CausalityProofs Proofs.TranslateStruct Proofs.NodeWf Proofs.PipelineProofs Proofs.TypeInfer Proofs.TypeNode Proofs.TypePipeline.
Import ListNotations.

(** ** Strings *)
Notation chars := list_ascii_of_string.
Lemma chars_app : forall a b, chars (a ++ b)%string = chars a ++ chars b.
Proof. induction a; cbn; intros; congruence. Qed.
Lemma chars_inj : forall a b, chars a = chars b -> a = b.
Proof. intros a b H. rewrite <- (string_of_list_ascii_of_string a), H. apply string_of_list_ascii_of_string. Qed.

Definition digit (c : ascii) : Prop := In c ["0"; "1"; "2"; "3"; "4"; "5"; "6"; "7"; "8"; "9"]%char.

Lemma digits_of_uint : forall d, Forall digit (chars (NilEmpty.string_of_uint d)).
Proof. induction d; cbn; constructor; auto; unfold digit; cbn; tauto. Qed.
Lemma decimal_digits : forall n, Forall digit (chars (decimal n)).
Proof. intros n. apply digits_of_uint. Qed.
Lemma decimal_inj : forall n m, decimal n = decimal m -> n = m.
Proof.
  unfold decimal. intros n m H. apply (f_equal NilEmpty.uint_of_string) in H. rewrite !NilEmpty.usu in H. injection H as H.
  apply (f_equal Nat.of_uint) in H. rewrite !Unsigned.of_to in H. auto.
Qed.

Lemma digits_split : forall d d' c c' a a', Forall digit d -> Forall digit d' -> ~ digit c -> ~ digit c' ->
  d ++ c :: a = d' ++ c' :: a' -> d = d' /\ a = a'.
Proof.
  induction d as [|x d IH]; intros [|x' d'] c c' a a' F F' N N' H; cbn in H; inversion H; subst; auto.
  - inversion F'; subst. tauto.
  - inversion F; subst. tauto.
  - inversion F; inversion F'; subst. destruct (IH d' c c' a a'); auto. subst. auto.
Qed.
Lemma digits_suffix : forall a a' c c' d d', Forall digit d -> Forall digit d' -> ~ digit c -> ~ digit c' ->
  a ++ c :: d = a' ++ c' :: d' -> a = a' /\ d = d'.
Proof.
  intros a a' c c' d d' F F' N N' H. apply (f_equal (@rev ascii)) in H. rewrite !rev_app_distr in H. cbn in H. rewrite <- !app_assoc in H. cbn in H.
  apply digits_split in H; auto; try (apply Forall_rev; auto). destruct H as [A B].
  apply (f_equal (@rev ascii)) in A. apply (f_equal (@rev ascii)) in B. rewrite !rev_involutive in *. auto.
Qed.

Lemma marked_inj : forall s x y u v, (x ++ "__lus_" ++ decimal u ++ s = y ++ "__lus_" ++ decimal v ++ s)%string -> x = y /\ u = v.
Proof.
  intros s x y u v H. apply (f_equal chars) in H. rewrite !chars_app in H. rewrite !app_assoc in H. apply app_inv_tail in H.
  assert (E : forall z w, (chars z ++ chars "__lus_") ++ w = (chars z ++ chars "__lus") ++ "_"%char :: w).
  { intros z w. rewrite <- !app_assoc. auto. }
  rewrite !E in H. apply digits_suffix in H; try apply decimal_digits; try (unfold digit; cbn; intuition discriminate).
  destruct H as [A B]. apply app_inv_tail in A. split; [apply chars_inj; auto|]. apply decimal_inj. apply chars_inj. auto.
Qed.
Lemma node_id_inj : forall x y u v, node_id u x = node_id v y -> x = y /\ u = v.
Proof. intros x y u v. apply marked_inj. Qed.
Lemma global_id_inj : forall x y u v, global_id u x = global_id v y -> x = y /\ u = v.
Proof. intros x y u v. apply marked_inj. Qed.
Lemma local_id_inj : forall x y, local_id x = local_id y -> x = y.
Proof.
  unfold local_id. intros x y H. apply (f_equal chars) in H. rewrite !chars_app in H. apply app_inv_tail in H. apply chars_inj. auto.
Qed.
Lemma local_global : forall x y u, local_id x <> global_id u y.
Proof.
  unfold local_id, global_id. intros x y u H. apply (f_equal chars) in H. rewrite !chars_app in H. apply (f_equal (@rev ascii)) in H.
  rewrite !rev_app_distr in H. cbn in H. discriminate H.
Qed.
Lemma local_node : forall x y u, local_id x <> node_id u y.
Proof.
  unfold local_id, node_id. intros x y u H. apply (f_equal chars) in H. rewrite !chars_app in H. apply (f_equal (@rev ascii)) in H.
  rewrite !rev_app_distr in H. cbn in H. discriminate H.
Qed.

Lemma plain_node : forall u x y, plain y -> y <> node_id u x.
Proof. intros u x y P E. apply (P _ _ E). Qed.
Lemma plain_global : forall u x y, plain y -> y <> global_id u x.
Proof. intros u x y P E. apply (P _ _ E). Qed.
Lemma plain_local : forall x y, plain y -> y <> local_id x.
Proof. intros x y P E. apply (P x "local"%string E). Qed.

Ltac plain_lit := let a := fresh "a" in let b := fresh "b" in let E := fresh "E" in
  intros a b E; repeat (destruct a as [|? a]; cbn in E; [discriminate E|injection E as _ E]); destruct a; discriminate E.
Lemma reserved_plain : forall x, In x reserved -> plain x.
Proof. intros x I. unfold reserved in I. cbn in I. repeat destruct I as [<-|I]; try (plain_lit; fail). destruct I. Qed.
Lemma rust_plain : forall x, In x rust_types -> plain x.
Proof. intros x I. unfold rust_types in I. cbn in I. repeat destruct I as [<-|I]; try (plain_lit; fail). destruct I. Qed.

(** ** Items *)
Lemma nodup_app_inv : forall {A} (l l' : list A), NoDup (l ++ l') -> NoDup l /\ NoDup l' /\ (forall x, In x l -> ~ In x l').
Proof.
  induction l as [|a l IH]; cbn; intros l' N; [split; [constructor|auto]|]. inversion N; subst. destruct (IH _ H2) as (A1 & A2 & A3).
  rewrite in_app_iff in H1. split; [constructor; auto|]. split; auto. intros x [<-|I]; auto.
Qed.

Lemma internal_eq : forall u d u' d', internal u d = internal u' d' -> u = u' /\ decl_provides d = decl_provides d'.
Proof.
  destruct d, d'; cbn; intros E; inversion E as [E']; (apply node_id_inj in E' || apply global_id_inj in E'); destruct E' as [-> ->]; auto.
Qed.
Lemma internal_names : forall u l, NoDup (flat_map decl_provides l) -> NoDup (map (internal u) l).
Proof.
  induction l as [|d l IH]; cbn; intros N; [constructor|]. apply nodup_app_inv in N. destruct N as (_ & N & D). constructor; auto.
  intros I. apply in_map_iff in I. destruct I as (d' & E & I). apply internal_eq in E. destruct E as [_ E].
  assert (exists r, In r (decl_provides d)) as (r & R) by (destruct d; cbn; eauto).
  apply (D r R). apply in_flat_map. exists d'. rewrite E. auto.
Qed.

Lemma final_provides : forall l1' l2 l3 l, Forall2 typed_decl l1' l2 ->
  Forall2 (fun d d' => result (kc_decl d) = Some d') l2 l3 -> Forall2 (fun d d' => result (pos_decl d) = Some d') l3 l ->
  flat_map decl_provides l1' = flat_map decl_provides l.
Proof.
  intros l1' l2 l3 l F2 F3 F4. transitivity (flat_map decl_provides l2); [|transitivity (flat_map decl_provides l3)].
  - eapply forall2_flat_eq; [exact F2|]. intros d d' T. inversion T; subst; auto. cbn. 
    match goal with X : result (tc_node _ _ _ _) = Some _ |- _ => unfold tc_node in X; inv_out; auto end.
  - eapply forall2_flat_eq; [exact F3|]. intros d d' T. destruct d; cbn [kc_decl] in T; inv_out; auto.
    match goal with X : result (kc_node _) = Some _ |- _ => unfold kc_node in X; inv_out; auto end.
  - eapply forall2_flat_eq; [exact F4|]. intros d d' T. destruct d; cbn [pos_decl] in T; inv_out; auto.
    match goal with X : result (pos_node _) = Some _ |- _ => unfold pos_node in X; inv_out; auto end.
Qed.
Lemma pipeline_provides : forall p l, result (pipeline p) = Some l -> NoDup (flat_map decl_provides l).
Proof.
  intros p l H. destruct (pipeline_inv _ _ H) as (l0 & l1 & l1' & l2 & l3 & _ & _ & _ & C & F2 & F3 & F4).
  rewrite <- (final_provides _ _ _ _ F2 F3 F4). eapply prog_unique; eauto.
Qed.

Lemma crate_in : forall ps n u d, In (u, d) (crate n ps) -> n <= u /\ exists p l, result (pipeline p) = Some l /\ In d l /\
  (forall d', In d' l -> In (u, d') (crate n ps)).
Proof.
  induction ps as [|p ps IH]; intros n u d I; [destruct I|]. cbn [crate] in *. apply in_app_iff in I. destruct I as [I|I].
  - apply in_map_iff in I. destruct I as (d' & E & I). inversion E; subst. split; auto.
    destruct (result (pipeline p)) as [l|] eqn:R; [|destruct I]. exists p, l. repeat split; auto.
    intros d' I'. apply in_app_iff. left. apply in_map. auto.
  - destruct (IH _ _ _ I) as (L & q & l & R & J & K). split; [lia|]. exists q, l. repeat split; auto.
    intros d' I'. apply in_app_iff. auto.
Qed.

Theorem internal_distinct : forall ps n, NoDup (map (fun ud => internal (fst ud) (snd ud)) (crate n ps)).
Proof.
  induction ps as [|p ps IH]; intros n; cbn [crate map]; [constructor|]. rewrite map_app, map_map. cbn [fst snd].
  apply nodup_app_intro; auto.
  - destruct (result (pipeline p)) as [l|] eqn:R; [|constructor]. apply internal_names. eapply pipeline_provides; eauto.
  - intros x I J. apply in_map_iff in I. destruct I as (d & <- & I). apply in_map_iff in J. destruct J as ((u, d') & E & J).
    apply internal_eq in E. destruct E as [E _]. cbn in E. subst. apply crate_in in J. lia.
Qed.

(** ** Accepted declarations *)
Definition checked (gl : list (ident * base)) (fn : list (ident * fsig)) (d d' : decl) : Prop :=
  match d with
  | DConst o x t e => exists u, result (tc_const gl t e) = Some u /\ d' = d
  | DNode o nd => exists nd' gens, result (tc_node gl fn o nd) = Some (nd', gens) /\ d' = DNode o nd'
  | DExtConst _ _ _ => d' = d
  | DExtNode o x i o' => exists u, result (tc_ext_node o i o') = Some u /\ d' = d
  end.

Lemma forall2_weaken : forall {A B} (R Q : A -> B -> Prop), (forall a b, R a b -> Q a b) -> forall l l', Forall2 R l l' -> Forall2 Q l l'.
Proof. induction 2; constructor; auto. Qed.

Lemma tc_decls_checked : forall l gl fn l', result (tc_decls gl fn l) = Some (true, l') ->
  Forall2 (fun d d' => exists gl' fn', checked gl' fn' d d' /\
    (forall x, lookup x gl' <> None -> lookup x gl <> None \/ In (RGlobal x) (flat_map decl_provides l)) /\
    (forall x, lookup x fn' <> None -> lookup x fn <> None \/ In (RFun x) (flat_map decl_provides l))) l l'.
Proof.
  induction l as [|d l IH]; intros gl fn l' H; cbn [tc_decls] in H; [inv_out; constructor|].
  apply obind_some in H. destruct H as (r & E & H). apply attempt_some in E.
  apply obind_some in H. destruct H as ((gl', fn') & E1 & H).
  apply obind_some in H. destruct H as ((ok, ds) & E2 & H). injection H as H1 H2.
  destruct r as [d'|]; [|discriminate H1]. destruct ok; [|discriminate H1]. subst l'. clear H1.
  constructor.
  - exists gl, fn. split; [|auto]. destruct d; cbn [checked].
    + apply obind_some in E. destruct E as (u & E & X). inversion X; eauto.
    + apply obind_some in E. destruct E as ((nd', g) & E & X). inversion X; eauto.
    + inversion E; auto.
    + apply obind_some in E. destruct E as (u & E & X). inversion X; eauto.
  - apply IH in E2. eapply forall2_weaken; [|exact E2]. cbn beta. intros a b (g1 & f1 & C & Kg & Kf). exists g1, f1. split; auto.
    assert (Lk : forall {A} x y (a : A) m, lookup x ((y, a) :: m) <> None -> x = y \/ lookup x m <> None).
    { intros A x y a' m K. cbn in K. destruct (String.eqb_spec x y); auto. }
    cbn [flat_map]. setoid_rewrite in_app_iff.
    split; intros x L; [apply Kg in L|apply Kf in L]; (destruct L as [L|L]; [|auto]); clear - E1 L Lk;
      destruct d; cbn [decl_provides];
      (match type of E1 with context [match lookup ?y ?m with _ => _ end] => destruct (lookup y m) end; [discriminate E1|]);
      inversion E1; subst; auto; apply Lk in L; destruct L as [->|L]; cbn; auto.
Qed.

(** The constants in an accepted expression are declared. *)
Section Globals.
  Variable ctx : tctx.
  Definition tc_ok (e : expr) : Prop := exists s t s', result (tc ctx e s) = Some (t, s').

  Lemma tcs_ok : forall l s r, result (tcs ctx l s) = Some r -> Forall tc_ok l.
  Proof.
    induction l as [|e l IH]; intros s r H; cbn [tcs] in H; constructor; inv_out; [red|]; eauto.
  Qed.

  Lemma tc_child : forall e, tc_ok e -> Forall tc_ok (children e).
  Proof.
    intros e (s & t & s' & H). destruct e; cbn [children]; try (constructor; fail); try (rewrite tc_tuple in H); cbn [tc] in H.
    - inv_out. eapply tcs_ok; eauto.
    - repeat constructor. red; eauto.
    - repeat constructor. red; eauto.
    - unfold primitive in *. inv_out. repeat constructor; red; eauto.
    - unfold primitive in *. inv_out. repeat constructor; red; eauto.
    - unfold primitive in *. inv_out. repeat constructor; red; eauto.
    - unfold primitive in *. inv_out. repeat constructor; red; eauto.
    - inv_out. repeat constructor; red; eauto.
    - inv_out. destruct init; inv_out; repeat constructor; red; eauto.
    - inv_out. repeat constructor; red; eauto.
    - unfold primitive in *. inv_out. repeat constructor; red; eauto.
    - inv_out. repeat constructor; red; eauto.
    - destruct (nth_error (c_blocks ctx) id); [|discriminate]. inv_out. repeat constructor; red; eauto.
  Qed.

  Lemma tc_occurs : forall x e, occurs x e -> tc_ok e -> tc_ok x.
  Proof. intros x e O. induction O; intros K; auto. apply IHO. apply tc_child in K. rewrite Forall_forall in K. auto. Qed.

  Lemma tc_global : forall x e, occurs (EGlobal x) e -> tc_ok e -> lookup x (c_global ctx) <> None.
  Proof.
    intros x e O K. destruct (tc_occurs _ _ O K) as (s & t & s' & H). cbn in H. destruct (lookup x (c_global ctx)); [discriminate|discriminate H].
  Qed.

  Lemma tc_stmts_exprs : forall l s s', result (tc_stmts ctx l s) = Some (Some s') ->
    forall e, In e (flat_map stmt_exprs (filter sourced l)) -> tc_ok e.
  Proof.
    induction l as [|i l IH]; intros s s' H e I; cbn [tc_stmts] in H; [destruct I|].
    apply obind_some in H. destruct H as (r & E & H). apply attempt_some in E.
    destruct r as [s1|]; [|apply obind_some in H; destruct H as (? & _ & H); discriminate].
    destruct i; cbn [filter sourced flat_map stmt_exprs] in I; eauto; cbn [app In] in I; destruct I as [<-|I]; eauto; cbn [tc_stmt] in E.
    - inv_out. red. eauto.
    - unfold primitive in E. inv_out. red. eauto.
  Qed.
End Globals.

Lemma globals_occur : forall e x, In x (expr_globals e) -> occurs (EGlobal x) e.
Proof.
  intros e. induction e using expr_ind'; intros y I; cbn [expr_globals] in I; rewrite ?in_app_iff in I;
    repeat match goal with H : _ \/ _ |- _ => destruct H end; try (destruct I; fail);
    try (eapply occ_child; [|eauto]; cbn; auto; fail).
  - destruct I as [<-|[]]. constructor.
  - apply in_flat_map in I. destruct I as (e & I & J). rewrite Forall_forall in H. eapply occ_child; [|eapply H; eauto]. auto.
Qed.

Section Node.
  Variables (o : node_opts) (sn : snode) (nd0 nd1 nd2 nd3 nd : node) (gl : list (ident * base)) (fn : list (ident * fsig)) (gens : list (option (list base))).
  Hypothesis H0 : result (tr_node o sn) = Some nd0.
  Hypothesis H1 : node_causality nd0 = inl nd1.
  Hypothesis H2 : result (tc_node gl fn o nd1) = Some (nd2, gens).
  Hypothesis H3 : result (kc_node nd2) = Some nd3.
  Hypothesis H4 : result (pos_node nd3) = Some nd.

  Lemma node_refs : n_name nd = n_name nd1 /\
    NoDup (map v_name (n_inputs nd ++ n_outputs nd ++ n_locals nd)) /\
    (forall f, In f (n_blocks nd) -> lookup f fn <> None) /\
    (forall x, In x (flat_map stmt_globals (n_stmts nd)) -> lookup x gl <> None).
  Proof.
    pose proof (tr_node_translated _ _ _ H0) as T.
    destruct (node_stmts_perm _ _ H1) as [Pm E1].
    set (stmts := n_stmts nd1) in *. clearbody stmts. subst nd1. cbn [n_stmts] in Pm.
    unfold tc_node in H2. cbn [n_inputs n_outputs n_locals n_stmts n_name n_blocks n_regs n_flips] in H2.
    apply obind_some in H2. destruct H2 as (u1 & X1 & Y2).
    apply obind_some in Y2. destruct Y2 as (u2 & X2 & Y2).
    apply obind_some in Y2. destruct Y2 as ((ok, vars) & X3 & Y2).
    apply obind_some in Y2. destruct Y2 as (u3 & X4 & Y2). destruct ok; [|discriminate].
    apply tc_vars_ok in X3. destruct X3 as (Nv & _ & Ev & _).
    apply obind_some in Y2. destruct Y2 as (bl & Xb & Y2). apply tc_blocks_some in Xb.
    apply obind_some in Y2. destruct Y2 as (sr & Xs & Y2). apply obind_some in Y2. destruct Y2 as (sr' & Xn & Y2).
    apply need_some in Xn. destruct sr as [s|]; [injection Xn as <-|discriminate Xn]. inversion Y2; subst nd2 gens; clear Y2.
    unfold kc_node in H3. cbn [n_inputs n_outputs n_locals n_stmts n_name n_blocks n_regs n_flips] in H3.
    apply obind_some in H3. destruct H3 as (u4 & X5 & Y3). apply obind_some in Y3. destruct Y3 as (ksr & Xk & Y3).
    apply obind_some in Y3. destruct Y3 as (ks & Xm & Y3). apply need_some in Xm. destruct ksr as [ks'|]; [injection Xm as <-|discriminate Xm].
    apply obind_some in Y3. destruct Y3 as (final & Xf & Y3). inversion Y3; subst nd3; clear Y3. apply omap_some in Xf.
    assert (K : Forall2 clocked_as stmts final).
    { eapply forall2_weaken; [|exact Xf]. intros i i' Q. eapply fill_clocked; [|exact Q]. apply kc_stmts_none in Xk. destruct Xk as [_ F]. apply F.
      intros id c L. discriminate L. }
    destruct (pos_node_all _ _ H4) as (m & Hm & End). cbn [n_inputs n_outputs n_locals n_stmts n_name n_blocks n_regs n_flips] in Hm, End.
    rewrite End. cbn [n_inputs n_outputs n_locals n_stmts n_name n_blocks n_regs n_flips]. split; auto. split; [|split].
    - rewrite !map_app, !set_depth_name. rewrite !map_app in Nv. auto.
    - intros f I. destruct (forall2_in_l _ _ _ Xb _ I) as (g & _ & L). congruence.
    - intros x I. apply in_flat_map in I. destruct I as (i' & I & J).
      destruct (forall2_in_r _ _ _ K _ I) as (i & Ii & C).
      assert (W : exists e, In e (flat_map stmt_exprs (filter sourced stmts)) /\ occurs (EGlobal x) e).
      { assert (Back : forall e, In e (flat_map stmt_exprs (filter sourced (n_stmts nd0))) -> In e (flat_map stmt_exprs (filter sourced stmts))).
        { intros e. apply Permutation_in. apply Permutation_flat_map. apply Permutation_sym. apply perm_sourced. exact Pm. }
        pose proof (Permutation_in _ Pm Ii) as I0.
        assert (Src : sourced i = true -> i' = i).
        { intros S. inversion C; subst; auto. discriminate S. }
        destruct i as [t e|e|id v c|id e].
        - rewrite (Src eq_refl) in J. cbn in J. exists e. split; [|apply globals_occur; auto].
          apply in_flat_map. exists (SLet t e). split; [apply filter_In; auto|cbn; auto].
        - rewrite (Src eq_refl) in J. cbn in J. exists e. split; [|apply globals_occur; auto].
          apply in_flat_map. exists (SAssert e). split; [apply filter_In; auto|cbn; auto].
        - destruct (td_init_occurs _ _ _ T _ _ _ I0) as (n & e & Ie & Oe). exists e. split; auto.
          assert (Jv : exists w, v = Some w /\ In x (expr_globals w)).
          { inversion C as [? N|? ? ? k]; subst; [discriminate N|]. cbn in J. apply in_app_iff in J. destruct J as [J|J].
            - exfalso. clear - J. destruct k; cbn in J; auto.
            - destruct v; [eauto|destruct J]. }
          destruct Jv as (w & -> & Jv). eapply occurs_trans; [|exact Oe]. eapply occ_child; [|apply globals_occur; exact Jv].
          cbn. auto.
        - assert (i' = SUpdate id e) by (inversion C; auto). subst i'. cbn in J.
          destruct (td_update_occurs _ _ _ T _ _ I0) as (i & e0 & Ie & Oe). exists e0. split; auto.
          eapply occurs_trans; [|exact Oe]. eapply occ_child; [|apply globals_occur; exact J].
          cbn. apply in_app_iff. cbn. auto. }
      destruct W as (e & Ie & Oe). pose proof (tc_stmts_exprs _ _ _ _ Xs _ Ie) as Ok. apply (tc_global _ _ _ Oe Ok).
  Qed.
End Node.

Lemma provided_item : forall u l r, In r (flat_map decl_provides l) ->
  match r with
  | RGlobal x => exists d, In d l /\ internal u d = (Values, global_id u x)
  | RFun x => exists d, In d l /\ internal u d = (Types, node_id u x)
  | _ => True
  end.
Proof.
  intros u l r I. apply in_flat_map in I. destruct I as (d & I & J).
  destruct d; cbn in J; destruct J as [<-|[]]; eexists; split; try exact I; reflexivity.
Qed.

Definition node_vars (d : decl) : list tyvar :=
  match d with
  | DNode _ nd => n_inputs nd ++ n_outputs nd ++ n_locals nd
  | DExtNode _ _ ins outs => ins ++ outs
  | _ => []
  end.

Lemma program_refers : forall p l u, result (pipeline p) = Some l -> forall d, In d l ->
  NoDup (map v_name (node_vars d)) /\
  forall it, In it (refers u d) -> exists d', In d' l /\ internal u d' = it.
Proof.
  intros p l u H d I. destruct (pipeline_typecheck _ _ H) as (l0 & l1 & l1' & l2 & l3 & F0 & F1 & Pm & Cz & F2 & F3 & F4).
  assert (Pr : flat_map decl_provides l1' = flat_map decl_provides l).
  { eapply final_provides; eauto. eapply tc_decls_some; eauto. }
  apply tc_decls_checked in F2.
  assert (Gl : forall gl' : list (ident * base), (forall x, lookup x gl' <> None -> lookup x ([] : list (ident * base)) <> None \/ In (RGlobal x) (flat_map decl_provides l1')) ->
    forall x, lookup x gl' <> None -> exists d', In d' l /\ internal u d' = (Values, global_id u x)).
  { intros gl' K x L. apply K in L. destruct L as [L|L]; [cbn in L; congruence|]. rewrite Pr in L. apply (provided_item u) in L. auto. }
  assert (Fn : forall fn' : list (ident * fsig), (forall x, lookup x fn' <> None -> lookup x ([] : list (ident * fsig)) <> None \/ In (RFun x) (flat_map decl_provides l1')) ->
    forall x, lookup x fn' <> None -> exists d', In d' l /\ internal u d' = (Types, node_id u x)).
  { intros fn' K x L. apply K in L. destruct L as [L|L]; [cbn in L; congruence|]. rewrite Pr in L. apply (provided_item u) in L. auto. }
  destruct (forall2_in_r _ _ _ F4 _ I) as (d3 & I3 & X3). destruct (forall2_in_r _ _ _ F3 _ I3) as (d2 & I2 & X2).
  destruct (forall2_in_r _ _ _ F2 _ I2) as (d1 & I1 & gl & fn & Ck & Kg & Kf).
  pose proof (Gl _ Kg) as Gl'. pose proof (Fn _ Kf) as Fn'. clear Gl Fn Kg Kf.
  destruct d1 as [o x t e|o nd1|o x t|o x ins outs]; cbn [checked] in Ck.
  - destruct Ck as (w & Ck & ->). cbn [kc_decl] in X2.
    assert (d3 = DConst o x t e /\ d = DConst o x t e) as [-> ->].
    { inversion X2; subst d3. cbn [pos_decl] in X3. inv_out. auto. }
    cbn [node_vars map refers]. split; [constructor|]. intros it J. apply in_app_iff in J. destruct J as [J|J].
    + destruct (oc_export o); [|destruct J]. destruct J as [<-|[]]. exists (DConst o x t e). auto.
    + apply in_map_iff in J. destruct J as (y & <- & J). apply Gl'. unfold tc_const in Ck. apply obind_some in Ck. destruct Ck as (? & _ & Ck).
      apply obind_some in Ck. destruct Ck as ((r, s) & Ck & _).
      apply (tc_global (mkTctx gl [] []) y e); [apply globals_occur; auto|]. red. eauto.
  - destruct Ck as (nd2 & gens & Ck & ->). cbn [kc_decl] in X2. apply obind_some in X2. destruct X2 as (nd3 & X2 & Q). inversion Q; subst d3.
    cbn [pos_decl] in X3. apply obind_some in X3. destruct X3 as (nd & X3 & Q'). inversion Q'; subst d.
    apply (Permutation_in _ Pm) in I1. destruct (forall2_in_r _ _ _ F1 _ I1) as (d0 & I0 & X1).
    destruct d0 as [|o0 nd0| |]; cbn [decl_causality] in X1; try discriminate.
    destruct (node_causality nd0) as [nd1'|] eqn:Ec; [|discriminate]. inversion X1; subst o0 nd1'; clear X1.
    destruct (forall2_in_r _ _ _ F0 _ I0) as ((a & x) & Ia & X0). unfold tr_attrdecl in X0. cbn [fst snd] in X0.
    apply obind_some in X0. destruct X0 as (op & W & X0).
    assert (exists sn, result (tr_node o sn) = Some nd0) as (sn & T).
    { destruct x as [? ? e|sn| |]; cbn [tr_decl] in X0; inv_out; eauto. destruct (t_stmts t0), (t_blocks t0); inv_out. }
    destruct (node_refs _ _ _ _ _ _ _ _ _ _ T Ec Ck X2 X3) as (En & Nv & Rb & Rg).
    cbn [node_vars]. split; auto. cbn [refers]. intros it [<-|J].
    + exists (DNode o nd). auto.
    + apply in_app_iff in J. destruct J as [J|J]; apply in_map_iff in J; destruct J as (y & <- & J); auto.
  - subst d2. cbn [kc_decl] in X2. inversion X2; subst d3. cbn [pos_decl] in X3. inv_out. cbn. split; [constructor|]. intros it [].
  - destruct Ck as (w & Ck & ->). cbn [kc_decl] in X2.
    assert (exists i' o', d = DExtNode o x i' o' /\ map v_name (i' ++ o') = map v_name (ins ++ outs)) as (i' & o' & -> & En).
    { inv_out. cbn [pos_decl] in X3. inv_out. eauto. }
    cbn [node_vars refers]. split.
    + rewrite En. unfold tc_ext_node in Ck. apply obind_some in Ck. destruct Ck as (? & _ & Ck). apply obind_some in Ck. destruct Ck as (? & _ & Ck).
      apply obind_some in Ck. destruct Ck as ((ok, vs) & Ck & Q). destruct ok; [|discriminate]. apply tc_vars_ok in Ck. tauto.
    + intros it [<-|[]]. exists (DExtNode o x i' o'). auto.
Qed.

Theorem references_inside : forall ps n u d, In (u, d) (crate n ps) -> forall it, In it (refers u d) ->
  exists d', In (u, d') (crate n ps) /\ internal u d' = it.
Proof.
  intros ps n u d I it J. apply crate_in in I. destruct I as (_ & p & l & R & I & K).
  destruct (program_refers _ _ u R _ I) as [_ P]. destruct (P _ J) as (d' & I' & E). eauto.
Qed.
Lemma vars_distinct : forall ps n u d, In (u, d) (crate n ps) -> NoDup (map v_name (node_vars d)).
Proof.
  intros ps n u d I. apply crate_in in I. destruct I as (_ & p & l & R & I & K). apply (program_refers _ _ u R _ I).
Qed.

(** ** Fields *)
Lemma nodup_filter_map : forall {A B} (f : A -> B) (g : A -> bool) l, NoDup (map f l) -> NoDup (map f (filter g l)).
Proof.
  induction l as [|a l IH]; cbn; intros N; auto. inversion N; subst. destruct (g a); cbn; auto. constructor; auto.
  intros I. apply H1. apply in_map_iff in I. destruct I as (b & E & I). apply filter_In in I. apply in_map_iff. exists b. tauto.
Qed.
Lemma nodup_local : forall l, NoDup (map v_name l) -> NoDup (map (fun v => local_id (v_name v)) l).
Proof.
  intros l N. rewrite <- (map_map v_name local_id). apply FinFun.Injective_map_NoDup; auto. intros a b. apply local_id_inj.
Qed.
Lemma special_fields : forall x, In x ["__clock"; "__phantom"; "__nodes"; "__flips"; "__regs"]%string -> plain x.
Proof. intros x I. cbn in I. repeat destruct I as [<-|I]; try (plain_lit; fail). destruct I. Qed.

Theorem fields_distinct : forall ps n u d, In (u, d) (crate n ps) -> NoDup (fields d).
Proof.
  intros ps n u d I. apply vars_distinct in I. destruct d as [o x t e|o nd|o x t|o x ins outs]; cbn [fields node_vars] in *; try (constructor; fail).
  - set (vs := filter _ _). assert (N : NoDup (map (fun v => local_id (v_name v)) vs)).
    { rewrite <- (map_map v_name local_id). apply FinFun.Injective_map_NoDup; [intros a b; apply local_id_inj|]. apply nodup_filter_map. auto. }
    clearbody vs. assert (Sp : forall y, In y ["__clock"; "__phantom"; "__nodes"; "__flips"; "__regs"]%string -> ~ In y (map (fun v => local_id (v_name v)) vs)).
    { intros y J K. apply in_map_iff in K. destruct K as (v & E & _). apply special_fields in J. apply (plain_local (v_name v) y J). auto. }
    apply nodup_app_intro; [|apply nodup_app_intro; auto|].
    + repeat constructor; cbn; intuition discriminate.
    + repeat constructor; cbn; intuition discriminate.
    + intros y J K. apply (Sp y); cbn in *; intuition.
    + intros y J K. apply in_app_iff in K. destruct K as [K|K].
      * apply (Sp y); cbn in *; intuition.
      * cbn in *. intuition (subst; discriminate).
  - repeat constructor; cbn; intuition discriminate.
Qed.

(** ** All items *)
Lemma visible_internal : forall l, cautious l -> forall u d u' d' it, In (u, d) l -> In (u', d') l -> In it (visible d) -> it <> internal u' d'.
Proof.
  intros l Ca u d u' d' (s, x) I I' J E. pose proof (ca_items _ Ca _ _ _ _ I J) as P.
  destruct d'; cbn in E; inversion E; subst; first [eapply plain_node; [exact P|reflexivity]|eapply plain_global; [exact P|reflexivity]].
Qed.

Lemma nodup_interleave : forall {A B} (f : A -> B) (g : A -> list B) l, NoDup (map f l) -> NoDup (flat_map g l) ->
  (forall a b y, In a l -> In b l -> In y (g a) -> y <> f b) -> NoDup (flat_map (fun a => f a :: g a) l).
Proof.
  induction l as [|a l IH]; intros N M D; [constructor|]. cbn [map flat_map] in *. inversion N; subst.
  apply nodup_app_inv in M. destruct M as (M1 & M2 & M3).
  assert (NoDup (flat_map (fun a => f a :: g a) l)) by (apply IH; auto; intros a0 b0 y0 I0 J0 K0; apply (D a0 b0 y0); cbn; auto).
  assert (Mem : forall y, In y (flat_map (fun a => f a :: g a) l) -> In y (map f l) \/ In y (flat_map g l)).
  { intros y J. apply in_flat_map in J. destruct J as (b & J & [<-|K]); [left; apply in_map; auto|right; apply in_flat_map; eauto]. }
  cbn [app]. constructor.
  - intros J. apply in_app_iff in J. destruct J as [J|J].
    + eapply D; [left; reflexivity|left; reflexivity|exact J|reflexivity].
    + apply Mem in J. destruct J as [J|J]; auto. apply in_flat_map in J. destruct J as (b & J & K).
      eapply D; [right; exact J|left; reflexivity|exact K|reflexivity].
  - apply nodup_app_intro; auto. intros y J K. apply Mem in K. destruct K as [K|K]; [|eapply M3; eauto].
    apply in_map_iff in K. destruct K as (b & <- & K). eapply D; [left; reflexivity|right; exact K|exact J|reflexivity].
Qed.

Theorem items_distinct : forall ps n, cautious (crate n ps) -> NoDup (flat_map (fun ud => items (fst ud) (snd ud)) (crate n ps)).
Proof.
  intros ps n Ca. unfold items. apply nodup_interleave.
  - apply internal_distinct.
  - apply (ca_distinct _ Ca).
  - intros (u, d) (u', d') y I I' J. exact (visible_internal _ Ca u d u' d' y I I' J).
Qed.

(** ** Binders *)
Lemma binder_kinds : forall d b, In b (binders d) ->
  (exists v, In v (node_vars d) /\ b = local_id (v_name v)) \/ In b (traced d) \/ In b reserved.
Proof.
  assert (R : forall x, In x reserved -> forall P Q : Prop, P \/ Q \/ In x reserved) by tauto.
  assert (Run : forall z b, In b (run_binders z) -> In b reserved) by (intros [z|] b J; cbn in *; tauto).
  intros d b I. destruct d as [o x t e|o nd|o x t|o x ins outs]; cbn [binders node_vars traced] in *.
  - destruct I.
  - rewrite !in_app_iff in I. destruct I as [I|[I|[I|[I|[I|I]]]]].
    + apply R. cbn in *. tauto.
    + apply in_map_iff in I. destruct I as (v & <- & I). left. exists v. split; auto. rewrite !in_app_iff in *. tauto.
    + apply R. destruct (n_flips nd); cbn in *; tauto.
    + destruct (o_trace o) as [tr|]; cbn [trace_binders] in I; [|destruct I]. apply in_app_iff in I. destruct I as [I|I]; [apply R; cbn in *; tauto|auto].
    + right. right. eauto.
    + right. right. eauto.
  - apply R. cbn in *. tauto.
  - rewrite !in_app_iff in I. destruct I as [I|[I|[I|I]]].
    + apply R. cbn in *. tauto.
    + apply in_map_iff in I. destruct I as (v & <- & I). left. exists v. split; auto. 
    + destruct (oe_trace o) as [tr|]; cbn [trace_binders] in I; [|destruct I]. apply in_app_iff in I. destruct I as [I|I]; [apply R; cbn in *; tauto|auto].
    + right. right. eauto.
Qed.

Lemma const_kinds : forall u d c, In c (const_names u d) -> (exists x, c = global_id u x) \/ exposes d c.
Proof.
  intros u d c I. destruct d; cbn [const_names exposes] in *; try (destruct I; fail).
  - destruct I as [<-|I]; [eauto|]. destruct (oc_export o); [|destruct I]. destruct I as [<-|[]]. auto.
  - destruct I as [<-|[<-|[]]]; eauto.
Qed.

Theorem binders_free : forall ps n, cautious (crate n ps) -> forall u d u' d' b, In (u, d) (crate n ps) -> In (u', d') (crate n ps) ->
  In b (binders d) -> ~ In b (const_names u' d').
Proof.
  intros ps n Ca u d u' d' b I I' B C. apply binder_kinds in B. apply const_kinds in C.
  destruct C as [(x & ->)|C].
  - destruct B as [(v & _ & E)|[B|B]].
    + apply (local_global _ _ _ (eq_sym E)).
    + apply (plain_global u' x _ (ca_vars _ Ca _ _ _ I B)). auto.
    + apply (plain_global u' x _ (reserved_plain _ B)). auto.
  - destruct B as [(v & _ & ->)|[B|B]].
    + apply (plain_local (v_name v) _ (ca_consts _ Ca _ _ _ I' C)). auto.
    + apply (ca_traced _ Ca _ _ _ _ _ I' I C B).
    + apply (ca_reserved _ Ca _ _ _ I' C B).
Qed.

(** Local variables, without precautions *)
Theorem locals_apart : forall ps n u d v, In (u, d) (crate n ps) -> In v (node_vars d) ->
  (forall w, In w (node_vars d) -> local_id (v_name w) = local_id (v_name v) -> w = v) /\
  (forall u' d', In (u', d') (crate n ps) -> snd (internal u' d') <> local_id (v_name v)) /\
  ~ In (local_id (v_name v)) reserved.
Proof.
  intros ps n u d v I V. split; [|split].
  - intros w W E. apply local_id_inj in E. apply vars_distinct in I.
    clear - I V W E. induction (node_vars d) as [|a l IH]; [destruct V|]. cbn in *. inversion I; subst.
    destruct V as [->|V], W as [->|W]; auto; exfalso; apply H1; [rewrite <- E|rewrite E]; apply in_map; auto.
  - intros u' d' _ E. destruct d'; cbn in E; try (apply (local_node _ _ _ (eq_sym E))); apply (local_global _ _ _ (eq_sym E)).
  - intros J. apply reserved_plain in J. apply (plain_local (v_name v) _ J). auto.
Qed.

(** ** Types *)
Theorem types_free : forall ps n, cautious (crate n ps) -> forall u d t, In (u, d) (crate n ps) ->
  In t rust_types \/ In (Types, t) (refers u d) -> ~ In t (params d).
Proof.
  intros ps n Ca u d t I T P. destruct T as [T|T]; [apply (ca_rust _ Ca _ _ _ I P T)|].
  pose proof (ca_params _ Ca _ _ _ I P) as Pl.
  destruct (references_inside _ _ _ _ I _ T) as (d' & _ & E). destruct d'; cbn in E; inversion E; subst; eapply plain_node; try exact Pl; reflexivity.
Qed.
Theorem rust_free : forall ps n, cautious (crate n ps) -> forall u d t, In (u, d) (crate n ps) -> In t rust_types -> ~ In (Types, t) (items u d).
Proof.
  intros ps n Ca u d t I T [E|J]; [|apply (ca_types _ Ca _ _ _ I J T)].
  apply rust_plain in T. destruct d; cbn in E; inversion E; subst; eapply plain_node; try exact T; reflexivity.
Qed.

(** ** Deciding the precautions *)
Lemma plain_index : forall x, String.index 0 "__lus_" x = None -> plain x.
Proof.
  intros x H a b E. apply (index_correct3 0 (String.length a) _ _ H); [discriminate|lia|]. subst x.
  clear H. induction a as [|c a IH]; [destruct b; reflexivity|]. cbn in *. auto.
Qed.

Definition is_plain (x : string) : bool := match String.index 0 "__lus_" x with None => true | Some _ => false end.
Definition mem (x : string) (l : list string) : bool := existsb (String.eqb x) l.
Definition item_eqb (a b : item) : bool :=
  match a, b with (Types, x), (Types, y) | (Values, x), (Values, y) => String.eqb x y | _, _ => false end.
Fixpoint distinct (l : list item) : bool := match l with [] => true | a :: l => negb (existsb (item_eqb a) l) && distinct l end.
Definition exposed (d : decl) : list ident :=
  match d with DConst o y _ _ => if oc_export o then [y] else [] | DExtConst _ y _ => [y] | _ => [] end.
Definition check (l : list (nat * decl)) : bool :=
  let ds := map snd l in
  forallb (fun d =>
    forallb (fun it => is_plain (snd it)) (visible d) && forallb is_plain (exposed d) && forallb is_plain (traced d) && forallb is_plain (params d) &&
    forallb (fun x => negb (mem x reserved)) (exposed d) &&
    forallb (fun d' => forallb (fun x => negb (mem x (traced d'))) (exposed d)) ds &&
    forallb (fun it => match it with (Types, x) => negb (mem x rust_types) | _ => true end) (visible d) &&
    forallb (fun x => negb (mem x rust_types)) (params d)) ds &&
  distinct (flat_map visible ds).

Lemma is_plain_ok : forall x, is_plain x = true -> plain x.
Proof. unfold is_plain. intros x H. apply plain_index. destruct (index 0 "__lus_" x); [discriminate|auto]. Qed.
Lemma mem_ok : forall x l, negb (mem x l) = true -> ~ In x l.
Proof.
  intros x l H I. apply negb_true_iff in H. assert (mem x l = true); [|congruence]. apply existsb_exists. exists x. split; auto. apply String.eqb_refl.
Qed.
Lemma item_eqb_refl : forall a, item_eqb a a = true.
Proof. intros ([], x); cbn; apply String.eqb_refl. Qed.
Lemma distinct_ok : forall l, distinct l = true -> NoDup l.
Proof.
  induction l as [|a l IH]; cbn; intros H; constructor; apply andb_prop in H; destruct H as [H K]; auto.
  intros I. apply negb_true_iff in H. assert (existsb (item_eqb a) l = true); [|congruence]. apply existsb_exists. exists a. split; auto. apply item_eqb_refl.
Qed.
Lemma exposes_in : forall d x, exposes d x -> In x (exposed d).
Proof. intros d y H; destruct d; cbn in *; try tauto; [destruct H as [-> ->]; cbn; auto|auto]. Qed.

Theorem cautious_check : forall l, check l = true -> cautious l.
Proof.
  intros l H. unfold check in H. apply andb_prop in H. destruct H as [H D]. rewrite forallb_forall in H.
  assert (K : forall u d, In (u, d) l -> In d (map snd l)) by (intros u d I; apply in_map_iff; exists (u, d); auto).
  assert (F : forall {A} (f : A -> bool) m x, forallb f m = true -> In x m -> f x = true) by (intros A f m x Q; rewrite forallb_forall in Q; auto).
  assert (P : forall d, In d (map snd l) ->
    (forall it, In it (visible d) -> plain (snd it)) /\ (forall x, exposes d x -> plain x) /\ (forall x, In x (traced d) -> plain x) /\
    (forall x, In x (params d) -> plain x) /\ (forall x, exposes d x -> ~ In x reserved) /\
    (forall d', In d' (map snd l) -> forall x, exposes d x -> ~ In x (traced d')) /\
    (forall x, In (Types, x) (visible d) -> ~ In x rust_types) /\ (forall x, In x (params d) -> ~ In x rust_types)).
  { intros d I. apply H in I. repeat rewrite andb_true_iff in I. destruct I as (((((((A1 & A2) & A3) & A4) & A5) & A6) & A7) & A8).
    repeat split.
    - intros it J. apply is_plain_ok. apply (F _ _ _ _ A1 J).
    - intros y J. apply is_plain_ok. apply (F _ _ _ _ A2 (exposes_in _ _ J)).
    - intros y J. apply is_plain_ok. apply (F _ _ _ _ A3 J).
    - intros y J. apply is_plain_ok. apply (F _ _ _ _ A4 J).
    - intros y J. apply mem_ok. apply (F _ _ _ _ A5 (exposes_in _ _ J)).
    - intros d' I' y J. apply mem_ok. apply (F _ _ _ _ (F _ _ _ _ A6 I') (exposes_in _ _ J)).
    - intros y J. apply mem_ok. apply (F _ _ _ _ A7 J).
    - intros y J. apply mem_ok. apply (F _ _ _ _ A8 J). }
  split.
  5: { apply distinct_ok in D. rewrite flat_map_concat_map, map_map, <- flat_map_concat_map in D. exact D. }
  - intros u d s y I J. apply K, P in I. destruct I as (Q & _). apply (Q (s, y) J).
  - intros u d y I J. apply K, P in I. destruct I as (_ & Q & _). auto.
  - intros u d y I J. apply K, P in I. destruct I as (_ & _ & Q & _). auto.
  - intros u d y I J. apply K, P in I. destruct I as (_ & _ & _ & Q & _). auto.
  - intros u d y I J. apply K, P in I. destruct I as (_ & _ & _ & _ & Q & _). auto.
  - intros u d u' d' y I I' J. apply K, P in I. apply K in I'. destruct I as (_ & _ & _ & _ & _ & Q & _). eauto.
  - intros u d y I J. apply K, P in I. destruct I as (_ & _ & _ & _ & _ & _ & Q & _). auto.
  - intros u d y I J. apply K, P in I. destruct I as (_ & _ & _ & _ & _ & _ & _ & Q). auto.
Qed.
