(** Expressions and statements accepted by the type check are well typed. *)
From Coq Require Import String List ZArith Bool Arith Lia Permutation.
From Verif Require Import Model.Base Model.Scalar Model.Ast Model.Errors Model.Options Model.Interp Model.Typecheck Model.Clockcheck
  Spec.StepSpec Spec.CoreSem Spec.TranslateSpec Spec.TypeSpec Proofs.AstInd Proofs.OutBasics Proofs.CoreProofs Proofs.TranslateStruct Proofs.NodeWf
  Proofs.DeepIds Proofs.TypeEval Proofs.TypeExec Proofs.Unify.
Import ListNotations.

Ltac take_some H a := apply need_some in H; destruct a; [injection H as ->|discriminate H].

Lemma tc_tuple : forall ctx l s, tc ctx (ETuple l) s = ('(ts, s) <~ tcs ctx l s;; done (TMult ts, s)).
Proof. reflexivity. Qed.

Lemma primitive_some : forall x b s, result (primitive x) = Some (b, s) -> result x = Some (TSingle b, s).
Proof. intros x b s H. unfold primitive in H. inv_out. destruct t; cbn in E0; inv_out. auto. Qed.

Lemma bin_accepts_some : forall op l r u, result (bin_accepts op l r) = Some u -> l = r /\ bin_type op l.
Proof.
  intros op l r u H. unfold bin_accepts in H. destruct (base_eqb l r) eqn:E; [|discriminate]. apply base_eqb_spec in E. subst.
  split; auto. destruct op, r; cbn in H; try discriminate; cbn; auto.
Qed.
Lemma un_accepts_some : forall op b u, result (un_accepts op b) = Some u -> un_type op b.
Proof. intros op b u H. destruct op, b; cbn in H; try discriminate; cbn; auto. Qed.
Lemma cmp_accepts_some : forall op l r u, result (cmp_accepts op l r) = Some u -> l = r /\ cmp_type op l.
Proof.
  intros op l r u H. unfold cmp_accepts in H. destruct (base_eqb l r) eqn:E; [|discriminate]. apply base_eqb_spec in E. subst.
  split; auto. destruct op, r; cbn in H; try discriminate; cbn; auto.
Qed.
Lemma is_bool_some : forall b u, result (is_bool b) = Some u -> b = BBool.
Proof. intros [] u H; cbn in H; try discriminate; auto. Qed.
Lemma is_primitive_some : forall t b, result (is_primitive t) = Some b -> t = TSingle b.
Proof. intros [] b' H; cbn in H; inv_out; auto. Qed.

Section Infer.
  Variable ctx : tctx.
  Variable G : context.
  Hypothesis Hv : forall x b, lookup x (c_vars ctx) = Some b -> x_vars G x = Some b.
  Hypothesis Hg : forall x b, lookup x (c_global ctx) = Some b -> x_globals G x = Some b.

  (** [G] knows the registers and the instances recorded in [s]. *)
  Definition known (s : tyst) : Prop :=
    (forall id t, In (id, t) (y_regs s) -> x_regs G id = Some t) /\
    (forall id l f, In (id, l) (y_gens s) -> nth_error (c_blocks ctx) id = Some f ->
       x_blocks G id = Some (flat (map (inst_base (subst_of (g_params f) l)) (g_ins f)),
                             flat (map (inst_base (subst_of (g_params f) l)) (g_outs f)))).
  Definition grows (s s' : tyst) : Prop := incl (y_regs s) (y_regs s') /\ incl (y_gens s) (y_gens s').
  Lemma grows_refl : forall s, grows s s.
  Proof. split; apply incl_refl. Qed.
  Lemma grows_trans : forall a b c, grows a b -> grows b c -> grows a c.
  Proof. intros a b c [H1 H2] [K1 K2]. split; eapply incl_tran; eauto. Qed.
  Lemma known_grows : forall s s', grows s s' -> known s' -> known s.
  Proof. intros s s' [A B] [C D]. split; eauto. Qed.

  Definition infers (e : expr) : Prop := forall s t s', result (tc ctx e s) = Some (t, s') ->
    grows s s' /\ (known s' -> has_type G e t).

  Lemma tc_infers : forall e, infers e.
  Proof.
    intros e. induction e using expr_ind'; intros s t0 s' E.
    - cbn in E. inv_out. split; [apply grows_refl|]. intros _. destruct l; constructor.
    - cbn in E. destruct (lookup x (c_vars ctx)) eqn:L; inv_out. split; [apply grows_refl|]. intros _. constructor; auto.
    - cbn in E. destruct (lookup x (c_global ctx)) eqn:L; inv_out. split; [apply grows_refl|]. intros _. constructor; auto.
    - rewrite tc_tuple in E. apply obind_some in E. destruct E as ([ts s1] & E & E'). inversion E'; subst.
      assert (K : grows s s' /\ (known s' -> have_types G l ts)).
      { clear E'. revert s ts E. induction H as [|e l He _ IH]; intros s ts E; cbn [tcs] in E.
        - inv_out. split; [apply grows_refl|constructor].
        - apply obind_some in E. destruct E as ([t1 s2] & E1 & E). apply obind_some in E. destruct E as ([ts1 s3] & E2 & E). inversion E; subst.
          apply He in E1. apply IH in E2. destruct E1 as [A1 A2], E2 as [B1 B2]. split; [eapply grows_trans; eauto|].
          intros K. constructor; auto. apply A2. eapply known_grows; eauto. }
      destruct K as [K1 K2]. split; auto. intros K. constructor; auto.
    - cbn [tc] in E. apply IHe in E. destruct E as [A B]. split; auto. intros K. constructor; auto.
    - cbn [tc] in E. apply IHe in E. destruct E as [A B]. split; auto. intros K. constructor; auto.
    - cbn [tc] in E. apply obind_some in E. destruct E as (l & E1 & E). apply attempt_some in E1.
      apply obind_some in E. destruct E as (r & E2 & E). apply attempt_some in E2.
      destruct l as [[l s1]|]; [|discriminate]. destruct r as [[r s2]|]; [|cbn in E; discriminate].
      cbn [next_st] in E2. apply primitive_some in E1, E2. apply IHe1 in E1. apply IHe2 in E2. destruct E1 as [A1 A2], E2 as [B1 B2].
      apply obind_some in E. destruct E as (u & E3 & E). inversion E3; subst u. cbn beta iota in E.
      apply obind_some in E. destruct E as (u & E4 & E). inversion E4; subst u. cbn beta iota in E.
      apply obind_some in E. destruct E as (u & E5 & E). apply bin_accepts_some in E5. destruct E5 as [-> T]. inversion E; subst.
      split; [eapply grows_trans; eauto|]. intros K. constructor; auto. apply A2. eapply known_grows; eauto.
    - cbn [tc] in E. apply obind_some in E. destruct E as ([b s1] & E1 & E). apply primitive_some in E1. apply IHe in E1. destruct E1 as [A1 A2].
      apply obind_some in E. destruct E as (u & E2 & E). apply un_accepts_some in E2. inversion E; subst. split; auto. intros K. constructor; auto.
    - cbn [tc] in E. apply obind_some in E. destruct E as (l & E1 & E). apply attempt_some in E1.
      apply obind_some in E. destruct E as (r & E2 & E). apply attempt_some in E2.
      destruct l as [[l s1]|]; [|discriminate]. destruct r as [[r s2]|]; [|cbn in E; discriminate].
      cbn [next_st] in E2. apply primitive_some in E1, E2. apply IHe1 in E1. apply IHe2 in E2. destruct E1 as [A1 A2], E2 as [B1 B2].
      apply obind_some in E. destruct E as (u & E3 & E). inversion E3; subst u. cbn beta iota in E.
      apply obind_some in E. destruct E as (u & E4 & E). inversion E4; subst u. cbn beta iota in E.
      apply obind_some in E. destruct E as (u & E5 & E). apply cmp_accepts_some in E5. destruct E5 as [-> T]. inversion E; subst.
      split; [eapply grows_trans; eauto|]. intros K. econstructor; eauto. apply A2. eapply known_grows; eauto.
    - (* when: the clock is checked first *)
      cbn [tc] in E. apply obind_some in E. destruct E as (a & E1 & E). apply attempt_some in E1.
      apply obind_some in E. destruct E as ([t s2] & E2 & E).
      apply obind_some in E. destruct E as (p & E3 & E). take_some E3 a. destruct p as [a s1].
      cbn [next_st] in E2. apply primitive_some in E1. apply IHe2 in E1. apply IHe1 in E2. destruct E1 as [A1 A2], E2 as [B1 B2].
      apply obind_some in E. destruct E as (u & E4 & E). apply is_bool_some in E4. subst. inversion E; subst.
      split; [eapply grows_trans; eauto|]. intros K. constructor; auto. apply A2. eapply known_grows; eauto.
    - cbn [tc] in E. apply obind_some in E. destruct E as (l & E1 & E). apply attempt_some in E1.
      apply obind_some in E. destruct E as (r & E2 & E). apply attempt_some in E2.
      destruct l as [[l s1]|]; [|discriminate]. destruct r as [[r s2]|]; [|cbn in E; discriminate].
      cbn [next_st] in E2. apply IHe1 in E1. apply IHe2 in E2. destruct E1 as [A1 A2], E2 as [B1 B2].
      apply obind_some in E. destruct E as (u & E3 & E). inversion E3; subst u. cbn beta iota in E.
      apply obind_some in E. destruct E as (u & E4 & E). inversion E4; subst u. cbn beta iota in E.
      apply obind_some in E. destruct E as (u & E5 & E). apply identical_eq in E5. destruct E5 as [_ ->]. inversion E; subst.
      split; [eapply grows_trans; eauto|]. intros K. constructor; auto. apply A2. eapply known_grows; eauto.
    - (* register *)
      cbn [tc] in E. apply obind_some in E. destruct E as ([t s1] & E1 & E). apply IHe in E1. destruct E1 as [A1 A2].
      apply obind_some in E. destruct E as (s2 & E2 & E). inversion E; subst. clear E.
      assert (K : grows s1 s2 /\ (known s2 -> OptForall (fun i => has_type G i t0) i)).
      { destruct i as [i|]; [|inv_out; split; [apply grows_refl|cbn; auto]].
        apply obind_some in E2. destruct E2 as ([ti s3] & E3 & E2). apply H in E3. destruct E3 as [C1 C2].
        apply obind_some in E2. destruct E2 as (u & E4 & E2). apply identical_eq in E4. destruct E4 as [_ ->]. inversion E2; subst. auto. }
      destruct K as [K1 K2].
      assert (G3 : grows s2 (mkTyst ((id, t0) :: y_regs s2) (y_gens s2))) by (split; cbn; [apply incl_tl|]; apply incl_refl).
      split; [eapply grows_trans; [|exact G3]; eapply grows_trans; eauto|]. intros K.
      assert (Ks : known s2) by (eapply known_grows; eauto).
      assert (X : x_regs G id = Some t0) by (apply K; cbn; auto).
      specialize (K2 Ks). destruct i as [i|]; constructor; auto; apply A2; eapply known_grows; eauto.
    - cbn [tc] in E. apply obind_some in E. destruct E as (l & E1 & E). apply attempt_some in E1.
      apply obind_some in E. destruct E as (r & E2 & E). apply attempt_some in E2.
      destruct l as [[l s1]|]; [|discriminate]. destruct r as [[r s2]|]; [|cbn in E; discriminate].
      cbn [next_st] in E2. apply IHe1 in E1. apply IHe2 in E2. destruct E1 as [A1 A2], E2 as [B1 B2].
      apply obind_some in E. destruct E as (u & E3 & E). inversion E3; subst u. cbn beta iota in E.
      apply obind_some in E. destruct E as (u & E4 & E). inversion E4; subst u. cbn beta iota in E.
      apply obind_some in E. destruct E as (u & E5 & E). apply identical_eq in E5. destruct E5 as [_ ->]. inversion E; subst.
      split; [eapply grows_trans; eauto|]. intros K. constructor; auto. apply A2. eapply known_grows; eauto.
    - (* if *)
      cbn [tc] in E. apply obind_some in E. destruct E as (c & E1 & E). apply attempt_some in E1.
      apply obind_some in E. destruct E as (y & E2 & E). apply attempt_some in E2.
      apply obind_some in E. destruct E as (n & E3 & E). apply attempt_some in E3.
      apply obind_some in E. destruct E as (p & Ec & E). take_some Ec c. destruct p as [c s1].
      apply obind_some in E. destruct E as (u & Eb & E). apply is_bool_some in Eb. subst c.
      apply obind_some in E. destruct E as (p & Ey & E). take_some Ey y. destruct p as [y s2].
      apply obind_some in E. destruct E as (p & En & E). take_some En n. destruct p as [n s3].
      cbn [next_st] in *. apply primitive_some in E1. apply IHe1 in E1. apply IHe2 in E2. apply IHe3 in E3.
      destruct E1 as [A1 A2], E2 as [B1 B2], E3 as [C1 C2].
      apply obind_some in E. destruct E as (u' & E5 & E). apply identical_eq in E5. destruct E5 as [_ ->]. inversion E; subst.
      split; [eapply grows_trans; [|exact C1]; eapply grows_trans; eauto|]. intros K.
      assert (K2 : known s2) by (eapply known_grows; eauto). assert (K1 : known s1) by (eapply known_grows; eauto). constructor; auto.
    - (* merge *)
      cbn [tc] in E. apply obind_some in E. destruct E as ([c s1] & E1 & E). 
      apply obind_some in E. destruct E as ([x s2] & E2 & E). apply obind_some in E. destruct E as ([y s3] & E3 & E).
      apply obind_some in E. destruct E as (cb & Ep & E). apply is_primitive_some in Ep. subst c.
      apply obind_some in E. destruct E as (u & Eb & E). apply is_bool_some in Eb. subst cb.
      apply IHe1 in E1. apply IHe2 in E2. apply IHe3 in E3. destruct E1 as [A1 A2], E2 as [B1 B2], E3 as [C1 C2].
      apply obind_some in E. destruct E as (u' & E5 & E). apply identical_eq in E5. destruct E5 as [_ ->]. inversion E; subst.
      split; [eapply grows_trans; [|exact C1]; eapply grows_trans; eauto|]. intros K.
      assert (K2 : known s2) by (eapply known_grows; eauto). assert (K1 : known s1) by (eapply known_grows; eauto). constructor; auto.
    - (* call *)
      cbn [tc] in E. destruct (nth_error (c_blocks ctx) id) as [f|] eqn:Ef; [|discriminate].
      apply obind_some in E. destruct E as ([actual s1] & E1 & E). apply IHe in E1. destruct E1 as [A1 A2].
      apply obind_some in E. destruct E as (u & E2 & E). apply obind_some in E. destruct E as (u' & E3 & E).
      destruct u' as [|m]; [discriminate|]. apply obind_some in E. destruct E as (l & E4 & E). inversion E; subst. clear E.
      destruct (instantiate_sound _ _ (g_outs f) _ _ _ _ E2 _ E3 eq_refl E4) as (-> & -> & _).
      assert (G3 : grows s1 (mkTyst (y_regs s1) ((id, l) :: y_gens s1))) by (split; cbn; [|apply incl_tl]; apply incl_refl).
      split; [eapply grows_trans; eauto|]. intros K.
      eapply ht_sub; [eapply (proj2 K); [left; reflexivity|exact Ef]|]. apply A2. eapply known_grows; eauto.
  Qed.

  Lemma target_infers : forall x t, result (tc_target ctx x) = Some t -> target_type G x t.
  Proof.
    induction x using vartuple_ind'; intros t E.
    - cbn in E. destruct (lookup x (c_vars ctx)) eqn:L; inv_out. constructor; auto.
    - cbn [tc_target] in E. apply obind_some in E. destruct E as (ts & E & E'). inversion E'; subst. constructor.
      apply omap_some in E. revert H. clear E'. induction E; intros F; constructor; inversion F; subst; auto.
  Qed.

  Lemma stmt_infers : forall i s s', result (tc_stmt ctx i s) = Some s' -> grows s s' /\ (known s' -> sourced i = true -> stmt_typed G i).
  Proof.
    intros i s s' E. destruct i; cbn [tc_stmt] in E.
    - apply obind_some in E. destruct E as (t & E1 & E). apply attempt_some in E1.
      apply obind_some in E. destruct E as (r & E2 & E). apply attempt_some in E2.
      apply obind_some in E. destruct E as (p & E3 & E). take_some E3 t.
      apply obind_some in E. destruct E as (q & E4 & E). take_some E4 r. destruct q as [r s2].
      apply obind_some in E. destruct E as (u & E5 & E). apply identical_eq in E5. destruct E5 as [_ ->]. inversion E; subst.
      apply tc_infers in E2. destruct E2 as [A B]. split; auto. intros K _. econstructor; eauto. apply target_infers. auto.
    - apply obind_some in E. destruct E as ([b s1] & E1 & E). apply primitive_some in E1. apply tc_infers in E1. destruct E1 as [A B].
      apply obind_some in E. destruct E as (u & E2 & E). apply is_bool_some in E2. inversion E; subst. split; auto. intros K _. constructor; auto.
    - inv_out. split; [apply grows_refl|discriminate].
    - inv_out. split; [apply grows_refl|discriminate].
  Qed.

  Lemma stmts_infer : forall l s s', result (tc_stmts ctx l s) = Some (Some s') ->
    grows s s' /\ (known s' -> Forall (fun i => sourced i = true -> stmt_typed G i) l).
  Proof.
    induction l as [|i l IH]; intros s s' E; cbn [tc_stmts] in E.
    - inv_out. split; [apply grows_refl|constructor].
    - apply obind_some in E. destruct E as (r & E1 & E). apply attempt_some in E1. destruct r as [s1|].
      + apply stmt_infers in E1. apply IH in E. destruct E1 as [A1 A2], E as [B1 B2]. split; [eapply grows_trans; eauto|].
        intros K. constructor; auto. apply A2. eapply known_grows; eauto.
      + apply obind_some in E. destruct E as (x & E2 & E). inversion E.
  Qed.

  (** ** The registers and call sites recorded are those of the statements. *)
  Definition records (e : expr) (s s' : tyst) : Prop :=
    Permutation (map fst (y_regs s')) (deep_regs e ++ map fst (y_regs s)) /\
    Permutation (map fst (y_gens s')) (deep_calls e ++ map fst (y_gens s)).
  Definition records_all (es : list expr) (s s' : tyst) : Prop :=
    Permutation (map fst (y_regs s')) (flat_map deep_regs es ++ map fst (y_regs s)) /\
    Permutation (map fst (y_gens s')) (flat_map deep_calls es ++ map fst (y_gens s)).
  Lemma records_nil : forall s, records_all [] s s.
  Proof. split; cbn; auto. Qed.
  Lemma records_app : forall a b s s1 s2, records_all a s s1 -> records_all b s1 s2 -> records_all (a ++ b) s s2.
  Proof.
    intros a b s s1 s2 [A1 A2] [B1 B2]. split; rewrite flat_map_app.
    - rewrite B1, A1, !app_assoc. apply Permutation_app_tail, Permutation_app_comm.
    - rewrite B2, A2, !app_assoc. apply Permutation_app_tail, Permutation_app_comm.
  Qed.
  Lemma records_one : forall e s s', records e s s' <-> records_all [e] s s'.
  Proof. intros. unfold records, records_all. cbn. rewrite !app_nil_r. reflexivity. Qed.
  Lemma records_perm : forall es es' s s', records_all es s s' ->
    Permutation (flat_map deep_regs es) (flat_map deep_regs es') -> Permutation (flat_map deep_calls es) (flat_map deep_calls es') ->
    records_all es' s s'.
  Proof. intros es es' s s' [A B] H K. split; [rewrite <- H|rewrite <- K]; auto. Qed.

  Ltac rsame P := apply records_one; eapply records_perm; [exact P| |]; cbn; rewrite ?app_nil_r, ?app_assoc; auto.

  Lemma tc_records : forall e s t s', result (tc ctx e s) = Some (t, s') -> records e s s'.
  Proof.
    intros e. induction e using expr_ind'; intros s t0 s' E.
    - cbn in E. inv_out. apply records_one. apply (records_nil s').
    - cbn in E. destruct (lookup x (c_vars ctx)) eqn:L; inv_out. apply records_one, (records_nil s').
    - cbn in E. destruct (lookup x (c_global ctx)) eqn:L; inv_out. apply records_one, (records_nil s').
    - rewrite tc_tuple in E. apply obind_some in E. destruct E as ([ts s1] & E & E'). inversion E'; subst.
      assert (K : records_all l s s').
      { clear E'. revert s ts E. induction H as [|e l He _ IH]; intros s ts E; cbn [tcs] in E.
        - inv_out. apply records_nil.
        - apply obind_some in E. destruct E as ([t1 s2] & E1 & E). apply obind_some in E. destruct E as ([ts1 s3] & E2 & E). inversion E; subst.
          apply He in E1. apply IH in E2. apply records_one in E1. apply (records_app _ _ _ _ _ E1 E2). }
      rsame K.
    - cbn [tc] in E. apply IHe in E. auto.
    - cbn [tc] in E. apply IHe in E. auto.
    - cbn [tc] in E. apply obind_some in E. destruct E as (l & E1 & E). apply attempt_some in E1.
      apply obind_some in E. destruct E as (r & E2 & E). apply attempt_some in E2.
      destruct l as [[l s1]|]; [|discriminate]. destruct r as [[r s2]|]; [|cbn in E; discriminate].
      cbn [next_st] in E2. apply primitive_some in E1, E2. apply IHe1, records_one in E1. apply IHe2, records_one in E2.
      pose proof (records_app _ _ _ _ _ E1 E2) as P. inv_out. rsame P.
    - cbn [tc] in E. apply obind_some in E. destruct E as ([b s1] & E1 & E). apply primitive_some in E1. apply IHe in E1. inv_out. auto.
    - cbn [tc] in E. apply obind_some in E. destruct E as (l & E1 & E). apply attempt_some in E1.
      apply obind_some in E. destruct E as (r & E2 & E). apply attempt_some in E2.
      destruct l as [[l s1]|]; [|discriminate]. destruct r as [[r s2]|]; [|cbn in E; discriminate].
      cbn [next_st] in E2. apply primitive_some in E1, E2. apply IHe1, records_one in E1. apply IHe2, records_one in E2.
      pose proof (records_app _ _ _ _ _ E1 E2) as P. inv_out. rsame P.
    - cbn [tc] in E. apply obind_some in E. destruct E as (a & E1 & E). apply attempt_some in E1.
      apply obind_some in E. destruct E as ([t s2] & E2 & E).
      apply obind_some in E. destruct E as (p & E3 & E). take_some E3 a. destruct p as [a s1].
      cbn [next_st] in E2. apply primitive_some in E1. apply IHe2, records_one in E1. apply IHe1, records_one in E2.
      pose proof (records_app _ _ _ _ _ E1 E2) as P. inv_out.
      apply records_one; eapply records_perm; [exact P| |]; cbn; rewrite ?app_nil_r; apply Permutation_app_comm.
    - cbn [tc] in E. apply obind_some in E. destruct E as (l & E1 & E). apply attempt_some in E1.
      apply obind_some in E. destruct E as (r & E2 & E). apply attempt_some in E2.
      destruct l as [[l s1]|]; [|discriminate]. destruct r as [[r s2]|]; [|cbn in E; discriminate].
      cbn [next_st] in E2. apply IHe1, records_one in E1. apply IHe2, records_one in E2.
      pose proof (records_app _ _ _ _ _ E1 E2) as P. inv_out. rsame P.
    - cbn [tc] in E. apply obind_some in E. destruct E as ([t s1] & E1 & E). apply IHe, records_one in E1.
      apply obind_some in E. destruct E as (s2 & E2 & E). inversion E; subst. clear E.
      assert (K : records_all (opt_list i) s1 s2).
      { destruct i as [i|]; [|inv_out; apply records_nil].
        apply obind_some in E2. destruct E2 as ([ti s3] & E3 & E2). apply H, records_one in E3. inv_out. auto. }
      destruct (records_app _ _ _ _ _ E1 K) as [P Q]. split; cbn [y_regs y_gens map fst deep_regs deep_calls].
      + rewrite P, flat_map_app. cbn [flat_map app]. constructor. apply Permutation_app_tail. rewrite app_nil_r, Permutation_app_comm.
        destruct i; cbn; rewrite ?app_nil_r; auto.
      + rewrite Q. apply Permutation_app_tail. rewrite flat_map_app. cbn [flat_map]. rewrite app_nil_r, Permutation_app_comm.
        destruct i; cbn; rewrite ?app_nil_r; auto.
    - cbn [tc] in E. apply obind_some in E. destruct E as (l & E1 & E). apply attempt_some in E1.
      apply obind_some in E. destruct E as (r & E2 & E). apply attempt_some in E2.
      destruct l as [[l s1]|]; [|discriminate]. destruct r as [[r s2]|]; [|cbn in E; discriminate].
      cbn [next_st] in E2. apply IHe1, records_one in E1. apply IHe2, records_one in E2.
      pose proof (records_app _ _ _ _ _ E1 E2) as P. inv_out. rsame P.
    - cbn [tc] in E. apply obind_some in E. destruct E as (c & E1 & E). apply attempt_some in E1.
      apply obind_some in E. destruct E as (y & E2 & E). apply attempt_some in E2.
      apply obind_some in E. destruct E as (n & E3 & E). apply attempt_some in E3.
      apply obind_some in E. destruct E as (p & Ec & E). take_some Ec c. destruct p as [c s1].
      apply obind_some in E. destruct E as (u & Eb & E).
      apply obind_some in E. destruct E as (p & Ey & E). take_some Ey y. destruct p as [y s2].
      apply obind_some in E. destruct E as (p & En & E). take_some En n. destruct p as [n s3].
      cbn [next_st] in *. apply primitive_some in E1. apply IHe1, records_one in E1. apply IHe2, records_one in E2. apply IHe3, records_one in E3.
      pose proof (records_app _ _ _ _ _ E1 (records_app _ _ _ _ _ E2 E3)) as P. inv_out. rsame P.
    - cbn [tc] in E. apply obind_some in E. destruct E as ([c s1] & E1 & E). 
      apply obind_some in E. destruct E as ([x s2] & E2 & E). apply obind_some in E. destruct E as ([y s3] & E3 & E).
      apply IHe1, records_one in E1. apply IHe2, records_one in E2. apply IHe3, records_one in E3.
      pose proof (records_app _ _ _ _ _ E1 (records_app _ _ _ _ _ E2 E3)) as P. inv_out. rsame P.
    - cbn [tc] in E. destruct (nth_error (c_blocks ctx) id) as [f|] eqn:Ef; [|discriminate].
      apply obind_some in E. destruct E as ([actual s1] & E1 & E). apply IHe in E1. destruct E1 as [A1 A2].
      apply obind_some in E. destruct E as (u & E2 & E). apply obind_some in E. destruct E as (u' & E3 & E).
      destruct u' as [|m]; [discriminate|]. apply obind_some in E. destruct E as (l & E4 & E). inversion E; subst. clear E.
      split; cbn; auto.
  Qed.

  Lemma stmts_record : forall l s s', result (tc_stmts ctx l s) = Some (Some s') ->
    records_all (flat_map stmt_exprs (filter sourced l)) s s'.
  Proof.
    induction l as [|i l IH]; intros s s' E; cbn [tc_stmts] in E.
    - inv_out. apply records_nil.
    - apply obind_some in E. destruct E as (r & E1 & E). apply attempt_some in E1. destruct r as [s1|].
      2: { apply obind_some in E. destruct E as (x & E2 & E). inversion E. }
      apply IH in E.
      assert (K : records_all (flat_map stmt_exprs (filter sourced [i])) s s1).
      { destruct i; cbn [tc_stmt] in E1; cbn.
        - apply obind_some in E1. destruct E1 as (t & E2 & E1). apply attempt_some in E2.
          apply obind_some in E1. destruct E1 as (r & E3 & E1). apply attempt_some in E3.
          apply obind_some in E1. destruct E1 as (p & E4 & E1). take_some E4 t.
          apply obind_some in E1. destruct E1 as (q & E5 & E1). take_some E5 r. destruct q as [r s2].
          inv_out. apply records_one. eapply tc_records; eauto.
        - apply obind_some in E1. destruct E1 as ([b s2] & E2 & E1). apply primitive_some in E2. inv_out. apply records_one. eapply tc_records; eauto.
        - inv_out. apply records_nil.
        - inv_out. apply records_nil. }
      pose proof (records_app _ _ _ _ _ K E) as P. rewrite <- flat_map_app, <- filter_app in P. exact P.
  Qed.
End Infer.

Lemma lookup_nat_in : forall {A} (l : list (nat * A)) id a, NoDup (map fst l) -> (lookup_nat id l = Some a <-> In (id, a) l).
Proof.
  induction l as [|[m b] l IH]; cbn; intros id a N; [split; [discriminate|tauto]|]. inversion N; subst.
  destruct (Nat.eqb_spec id m).
  - subst. split; [intros E; inversion E; auto|]. intros [E|J]; [congruence|]. exfalso. apply H1. apply (in_map fst) in J. auto.
  - rewrite IH by auto. split; auto. intros [E|J]; auto. congruence.
Qed.
Lemma lookup_nat_some : forall {A} (l : list (nat * A)) id, In id (map fst l) -> exists a, lookup_nat id l = Some a.
Proof.
  induction l as [|[m b] l IH]; cbn; intros id J; [tauto|]. destruct (Nat.eqb_spec id m); eauto. destruct J; [congruence|eauto].
Qed.

(** ** Clocks are boolean variables. *)
Section Clocks.
  Variable G : context.
  Variable local : list (ident * clock).
  Definition bool_var (x : ident) : Prop := x_vars G x = Some BBool.
  Definition bool_clk (k : clk) : Prop := match k with KOn x | KOff x => bool_var x | _ => True end.
  Hypothesis Hl : forall x c, lookup x local = Some c -> bool_clk (into_clk c).
  Definition bool_kst (s : kst) : Prop := forall id c, In (id, c) s -> has_type G c (TSingle BBool).

  Lemma forge_bool : forall k, bool_clk k -> has_type G (forge_as_expr k) (TSingle BBool).
  Proof. intros [] H; cbn in *; [constructor|constructor|apply ht_var; exact H|]. apply ht_un; [apply ht_var; exact H|cbn; auto]. Qed.

  Lemma refine_bool : forall a b k, result (refine a b) = Some k -> bool_clk a -> bool_clk b -> bool_clk k.
  Proof.
    intros [] [] k H A B; cbn in H; try discriminate; inv_out; auto; destruct (String.eqb _ _); inv_out; auto.
  Qed.

  Definition kbool (e : expr) : Prop := forall t, has_type G e t -> forall s k s', result (kc local e s) = Some (k, s') -> bool_kst s ->
    bool_clk k /\ bool_kst s'.

  Ltac kstep := repeat match goal with
    | A : result (kc local ?a ?s) = Some _, B : result (kc local _ ?t) = Some _ |- _ =>
        match t with context [result (kc local a s)] => rewrite A in B; cbn [knext] in B end
    end; repeat match goal with
    | IH : kbool ?e, T : has_type G ?e ?t, E : result (kc local ?e ?s) = Some (?k, ?s'), B : bool_kst ?s |- _ =>
        let X := fresh "X" in let Y := fresh "Y" in destruct (IH _ T _ _ _ E B) as [X Y]; clear E
    end.

  Lemma kcs_bool : forall g l ts, Forall kbool l -> have_types G l ts -> forall s s', result (kcs local g l s) = Some s' -> bool_kst s -> bool_kst s'.
  Proof.
    intros g. induction l as [|e l IH]; intros ts F Ts s s' E B; cbn [kcs] in E; [inv_out; auto|].
    inversion F; subst. inversion Ts; subst. apply obind_some in E. destruct E as ([k1 s1] & E1 & E).
    apply obind_some in E. destruct E as (u & E2 & E). kstep. eapply IH; eauto.
  Qed.

  Lemma kc_bool : forall e, kbool e.
  Proof.
    intros e. induction e using expr_ind'; intros t0 T s k s' E B; try rewrite kc_tuple in E; cbn [kc] in E.
    - inv_out. cbn; auto.
    - destruct (lookup x local) eqn:L; inv_out. eauto.
    - inv_out. cbn; auto.
    - inversion T; subst. destruct l as [|e0 l]; [inv_out; cbn; auto|].
      apply obind_some in E. destruct E as ([g s1] & E1 & E). apply obind_some in E. destruct E as (s2 & E2 & E). inversion E; subst. clear E.
      assert (K0 : kbool e0) by (inversion H; auto).
      match goal with A : have_types G (e0 :: l) _ |- _ => pose proof A as Ts; inversion A; subst end. kstep. split; auto.
      eapply kcs_bool; [exact H|exact Ts|exact E2|auto].
    - inversion T; subst. inv_out. kstep. auto.
    - inversion T; subst. kstep. auto.
    - inversion T; subst. inv_out. kstep. split; auto. eapply refine_bool; eauto.
    - inversion T; subst. kstep. auto.
    - inversion T; subst. inv_out. kstep. split; auto. eapply refine_bool; eauto.
    - inversion T; subst. inv_out. kstep. split; auto.
      match goal with A : result (as_clock ?x _) = Some _ |- _ => destruct x; cbn in A; inv_out end.
      match goal with A : has_type G (EVar _ _) _ |- _ => inversion A; subst end. destruct pos; cbn; auto.
    - inversion T; subst. inv_out. kstep. auto.
    - apply obind_some in E. destruct E as ([k1 s1] & E1 & E). apply obind_some in E. destruct E as (s2 & E2 & E). inversion E; subst. clear E.
      assert (Tn : has_type G e t0 /\ OptForall (fun i => has_type G i t0) i) by (inversion T; subst; cbn; auto). destruct Tn as [Tn Ti].
      kstep.
      assert (B2 : bool_kst s2).
      { destruct i as [i|]; [|inv_out; auto]. cbn in H, Ti. inv_out. kstep. auto. }
      split; auto. intros id' c [J|J]; [inversion J; subst; apply forge_bool; auto|eauto].
    - inversion T; subst. inv_out. kstep. auto.
    - inversion T; subst. inv_out. kstep. split; auto. eapply refine_bool; [eauto| |auto]. eapply refine_bool; eauto.
    - inversion T; subst. inv_out. kstep. auto.
    - inversion T; subst. kstep. auto.
  Qed.

  Lemma kc_stmts_bool : forall l s s', Forall (fun i => sourced i = true -> stmt_typed G i) l ->
    result (kc_stmts local l s) = Some (Some s') -> bool_kst s -> bool_kst s'.
  Proof.
    induction l as [|i l IH]; intros s s' F E B; cbn [kc_stmts] in E; [inv_out; auto|].
    apply obind_some in E. destruct E as (r & E1 & E). apply attempt_some in E1. destruct r as [s1|].
    2: { apply obind_some in E. destruct E as (x & E2 & E). inversion E. }
    inversion F; subst. eapply IH; eauto. clear IH E.
    destruct i; cbn [kc_stmt] in E1.
    - specialize (H1 eq_refl). inversion H1 as [? ? ? Ht He| | |]; subst. apply obind_some in E1. destruct E1 as (k & E2 & E1).
      apply obind_some in E1. destruct E1 as ([r s2] & E3 & E1). destruct (kc_bool _ _ He _ _ _ E3 B) as [_ B2].
      destruct target as [x|[|]]; inv_out; auto.
    - specialize (H1 eq_refl). inversion H1 as [|? He| |]; subst. apply obind_some in E1. destruct E1 as ([k s2] & E2 & E1).
      destruct (kc_bool _ _ He _ _ _ E2 B) as [_ B2]. inv_out. auto.
    - inv_out. auto.
    - inv_out. auto.
  Qed.
End Clocks.

(** ** Subexpressions of a typed expression *)
Lemma have_types_in : forall G l ts e, have_types G l ts -> In e l -> exists t, has_type G e t.
Proof. intros G. induction l as [|e l IH]; intros ts x H J; [destruct J|]. inversion H; subst. destruct J as [<-|J]; eauto. Qed.
Lemma has_type_child : forall G e t c, has_type G e t -> In c (children e) -> exists t', has_type G c t'.
Proof.
  intros G e t c H J. inversion H; subst; cbn in J; repeat (destruct J as [<-|J]); try tauto; eauto.
  eapply have_types_in; eauto.
Qed.
Lemma has_type_occurs : forall G x e t, occurs x e -> has_type G e t -> exists t', has_type G x t'.
Proof.
  intros G x e t O. revert t. induction O as [|e c J O IH]; intros t H; eauto.
  destruct (has_type_child _ _ _ _ H J) as (t' & H'). eauto.
Qed.
