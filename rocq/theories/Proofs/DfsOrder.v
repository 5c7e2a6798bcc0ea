(** The order in which the exploration of an acyclic graph closes its vertices. *)
From Coq Require Import List Arith Bool Lia Permutation.
From Verif Require Import Model.Base Model.Graph Spec.GraphSpec Proofs.InterpBasics Proofs.Tarjan.
Import ListNotations.

Section Dfs.
  Variable g : list (list nat).
  Hypothesis no_cycle : forall u w, reach g u w -> reach g w u -> u = w.
  Hypothesis no_loop : forall u, ~ edge g u u.

  (** [entered s A]: [s] is entered when the vertices [A] are closed; either as
      a root, or as a child of [p], itself entered earlier. *)
  Inductive entered : nat -> list nat -> Prop :=
  | en_root : forall s A, (forall j, j < s -> In j A) -> entered s A
  | en_child : forall p D l1 s l2 A, entered p D -> nth_error g p = Some (l1 ++ s :: l2) ->
      incl D A -> incl l1 A -> entered s A.

  Definition explained (us : list nat) : Prop := forall B s C, us = B ++ s :: C ->
    exists A B', B = A ++ B' /\ entered s A.

  Lemma explained_nil : explained [].
  Proof. intros [|? ?] s C E; discriminate. Qed.
  Lemma explained_snoc : forall us seg v, explained (us ++ seg) -> entered v us -> explained (us ++ seg ++ [v]).
  Proof.
    intros us seg v X V B s C E. destruct C as [|c C _] using rev_ind.
    - rewrite app_assoc in E. apply app_inj_tail in E. destruct E as [<- <-]. eauto.
    - rewrite app_comm_cons, !app_assoc in E. apply app_inj_tail in E. destruct E as [E _].
      eapply X. exact E.
  Qed.

  Record AI (x : explorer) : Prop := mkAI {
    a_len : length (x_extra x) = length g;
    a_lt : forall v i, idx x v = Some i -> i < x_index x;
    a_ons : forall v, ons x v = true <-> In v (x_stk x);
    a_vis : forall v, In v (x_stk x) -> idx x v <> None;
    a_done : forall v, In v (concat (x_scc x)) <-> (idx x v <> None /\ ~ In v (x_stk x)) }.

  Definition kept (x x' : explorer) : Prop :=
    x_index x <= x_index x' /\
    (forall u i, idx x u = Some i -> idx x' u = Some i) /\
    (forall u i, idx x u = Some i -> low x' u = low x u) /\
    exists seg, concat (x_scc x') = concat (x_scc x) ++ seg.

  Lemma kept_refl : forall x, kept x x.
  Proof. intros x. split; auto. split; auto. split; auto. exists []. rewrite app_nil_r. auto. Qed.

  (** The state of the loop on the children of [v]. *)
  Record looping (v : nat) (base : list nat) (iv : nat) (x0 x : explorer) : Prop := mkLooping {
    lo_ai : AI x;
    lo_stk : x_stk x = v :: base;
    lo_idx : idx x v = Some iv;
    lo_low : low x v = Some iv;
    lo_lt : iv < x_index x;
    lo_keep : forall u i, u <> v -> idx x0 u = Some i -> idx x u = Some i /\ low x u = low x0 u;
    lo_seg : exists seg, concat (x_scc x) = concat (x_scc x0) ++ seg;
    lo_expl : explained (concat (x_scc x)) }.

  Definition run_ok (run : nat -> explorer -> option explorer) : Prop := forall w x x',
    run w x = Some x' -> AI x -> idx x w = None -> (forall u, In u (x_stk x) -> reach g u w) ->
    entered w (concat (x_scc x)) -> explained (concat (x_scc x)) ->
    AI x' /\ x_stk x' = x_stk x /\ kept x x' /\ explained (concat (x_scc x')) /\
    In w (concat (x_scc x')) /\ exists j, low x' w = Some j /\ x_index x <= j.

  Lemma set_idx : forall x v e w, v < length (x_extra x) -> (v <> w -> False) \/ True ->
    idx (set_extra x v e) w = if v =? w then e_index e else idx x w.
  Proof. intros x v e w L _. unfold idx. rewrite get_set by auto. destruct (v =? w); auto. Qed.

  Lemma looping_low : forall v base iv x0 x ev m, looping v base iv x0 x -> get_extra x v = Some ev -> iv <= m ->
    looping v base iv x0 (set_extra x v (mkExtra (e_on_stack ev) (opt_min (e_low ev) (Some m)) (e_index ev))).
  Proof.
    intros v base iv x0 x ev m [A S I L Lt K Sg Ex] E Le.
    assert (Lv : v < length (x_extra x)) by (unfold get_extra in E; eauto using nth_error_some_lt).
    set (e := mkExtra _ _ _). assert (Ei : e_index ev = Some iv) by (unfold idx in I; rewrite E in I; auto).
    assert (El : e_low ev = Some iv) by (unfold low in L; rewrite E in L; auto).
    assert (X1 : forall w, idx (set_extra x v e) w = idx x w).
    { intros w. unfold idx. rewrite get_set by auto. destruct (Nat.eqb_spec v w) as [<-|]; auto. rewrite E. auto. }
    assert (X2 : forall w, ons (set_extra x v e) w = ons x w).
    { intros w. unfold ons. rewrite get_set by auto. destruct (Nat.eqb_spec v w) as [<-|]; auto. rewrite E. auto. }
    assert (X3 : forall w, low (set_extra x v e) w = low x w).
    { intros w. unfold low. rewrite get_set by auto. destruct (Nat.eqb_spec v w) as [<-|]; auto. rewrite E. simpl. rewrite El. simpl. f_equal. lia. }
    destruct A as [A1 A2 A3 A4 A5]. split; simpl; rewrite ?X1, ?X2, ?X3; auto.
    - split; simpl; auto.
      + rewrite set_nth_length. auto.
      + intros w i. rewrite X1. apply A2.
      + intros w. rewrite X2. apply A3.
      + intros w. rewrite X1. apply A4.
      + intros w. rewrite X1. apply A5.
    - intros u i N H. rewrite X1, X3. eauto.
  Qed.

  Lemma children_dfs : forall run v base iv x0 l x x' D done,
    run_ok run -> (forall u, In u (v :: base) -> reach g u v) ->
    entered v D -> incl D (concat (x_scc x)) -> nth_error g v = Some (done ++ l) -> incl done (concat (x_scc x)) ->
    looping v base iv x0 x -> children run v l x = Some x' -> looping v base iv x0 x'.
  Proof.
    intros run v base iv x0 l. induction l as [|w l IH]; intros x x' D done R Rv Ev ID Ng Id Lo H; cbn [children] in H.
    - inversion H; subst. auto.
    - assert (Ew : edge g v w). { eexists. split; [exact Ng|]. apply in_app_iff. simpl. auto. }
      assert (Ng' : nth_error g v = Some ((done ++ [w]) ++ l)) by (rewrite <- app_assoc; auto).
      destruct (get_extra x w) as [ew|] eqn:Gw; [|discriminate].
      pose proof Lo as [A S I L Lt K (sg & Sg) Ex].
      destruct (e_index ew) as [iw|] eqn:Iw.
      + assert (Ix : idx x w <> None) by (unfold idx; rewrite Gw; congruence).
        destruct (e_on_stack ew) eqn:Ow.
        * exfalso. assert (J : In w (x_stk x)) by (apply (a_ons _ A); unfold ons; rewrite Gw; auto).
          rewrite S in J. assert (v = w) by (apply no_cycle; [apply reach_edge; auto|apply Rv; auto]).
          subst. eapply no_loop; eauto.
        * apply (IH x x' D (done ++ [w]) R Rv Ev ID Ng'); auto.
          intros u J. apply in_app_iff in J. destruct J as [J|[<-|[]]]; auto. apply (a_done _ A). split; auto.
          intros J. apply (a_ons _ A) in J. unfold ons in J. rewrite Gw in J. congruence.
      + assert (Ix : idx x w = None) by (unfold idx; rewrite Gw; auto).
        destruct (run w x) as [x1|] eqn:Rw; [|discriminate].
        destruct (R w x x1 Rw A Ix) as (A1 & S1 & (Q1 & Q2 & Q3 & seg & Q4) & Ex1 & Jw & j & Lw & Lj); auto.
        { intros u J. rewrite S in J. eapply reach_trans; [apply Rv; auto|apply reach_edge; auto]. }
        { eapply en_child; eauto. }
        destruct (get_extra x1 v) as [ev|] eqn:G1; [|discriminate].
        destruct (get_extra x1 w) as [ew'|] eqn:Gw'; [|discriminate].
        assert (Lew : e_low ew' = Some j) by (unfold low in Lw; rewrite Gw' in Lw; auto). rewrite Lew in H.
        assert (Inc : incl (concat (x_scc x)) (concat (x_scc x1))) by (rewrite Q4; apply incl_appl, incl_refl).
        refine (IH _ x' D (done ++ [w]) R Rv Ev _ Ng' _ _ H).
        * simpl. eapply incl_tran; eauto.
        * simpl. apply incl_app; [eapply incl_tran; eauto|]. intros u [<-|[]]; auto.
        * apply looping_low; auto; [|lia]. split; auto.
          -- rewrite S1. auto.
          -- rewrite (Q3 _ _ I). auto.
          -- lia.
          -- intros u i N H0. destruct (K _ _ N H0) as [K1 K2]. split; [apply Q2; auto|]. rewrite (Q3 _ _ K1). auto.
          -- rewrite Q4, Sg, <- app_assoc. eauto.
  Qed.

  Lemma run_dfs : forall fuel, run_ok (scc_run g fuel).
  Proof.
    induction fuel as [|fuel IH]; intros v x x' H A Ix Rv Ev Ex; cbn [scc_run] in H; [discriminate|].
    destruct (get_extra x v) as [ev|] eqn:Gv; [|discriminate].
    set (x1 := mkExpl _ _ _ _) in H.
    destruct (nth_error g v) as [ws|] eqn:Ng; [|discriminate].
    destruct (children (scc_run g fuel) v ws x1) as [x2|] eqn:C; [|discriminate].
    assert (Lv : v < length (x_extra x)) by (unfold get_extra in Gv; eauto using nth_error_some_lt).
    assert (G1 : forall w, get_extra x1 w = if v =? w then Some (mkExtra true (Some (x_index x)) (Some (x_index x))) else get_extra x w).
    { intros w. unfold x1, get_extra. simpl. destruct (Nat.eqb_spec v w) as [->|N].
      - apply nth_error_set_nth_eq; auto.
      - apply nth_error_set_nth_neq; auto. }
    assert (NS : ~ In v (x_stk x)) by (intros J; apply (a_vis _ A) in J; auto).
    pose proof A as [A1 A2 A3 A4 A5].
    assert (Lo : looping v (x_stk x) (x_index x) x x1).
    { split; auto; unfold idx, low; rewrite ?G1, ?Nat.eqb_refl; simpl; auto.
      - split; simpl; auto.
        + rewrite set_nth_length. auto.
        + intros w i. unfold idx. rewrite G1. destruct (v =? w); simpl; [intros E; inversion E; lia|].
          intros E. apply A2 in E. lia.
        + intros w. unfold ons. rewrite G1. destruct (Nat.eqb_spec v w) as [->|N]; simpl; [tauto|].
          change (ons x w = true <-> v = w \/ In w (x_stk x)). rewrite A3. tauto.
        + intros w. unfold idx. rewrite G1. destruct (Nat.eqb_spec v w) as [->|N]; simpl; [congruence|].
          intros [J|J]; [contradiction|]. apply A4 in J. exact J.
        + intros w. unfold idx. rewrite G1. destruct (Nat.eqb_spec v w) as [->|N]; simpl.
          * rewrite A5. split; [tauto|]. intros [_ J]. exfalso. auto.
          * change (In w (concat (x_scc x)) <-> idx x w <> None /\ ~ (v = w \/ In w (x_stk x))). rewrite A5. tauto.
      - intros u i N E. rewrite G1. destruct (Nat.eqb_spec v u) as [->|_]; [congruence|]. auto.
      - exists []. rewrite app_nil_r. auto. }
    eapply (children_dfs _ v (x_stk x) (x_index x) x ws x1 x2 (concat (x_scc x)) []) in Lo; eauto; try (intros u []; fail).
    2:{ intros u [<-|J]; auto. constructor. }
    2:{ simpl. apply incl_refl. }
    destruct Lo as [B S I L Lt K (seg & Sg) Ex2].
    destruct (get_extra x2 v) as [ev2|] eqn:G2; [|discriminate].
    assert (Ei : e_index ev2 = Some (x_index x)) by (unfold idx in I; rewrite G2 in I; auto).
    assert (El : e_low ev2 = Some (x_index x)) by (unfold low in L; rewrite G2 in L; auto).
    rewrite Ei, El in H. cbn [opt_nat_eqb] in H. rewrite Nat.eqb_refl, S in H. cbn [pop_until] in H.
    unfold get_extra in G2. rewrite G2, Nat.eqb_refl in H. inversion H; subst x'. clear H. fold (get_extra x2 v) in G2.
    assert (Lv2 : v < length (x_extra x2)) by (rewrite (a_len _ B), <- A1; auto).
    set (e := mkExtra false _ _). set (x3 := mkExpl _ _ _ _).
    assert (G3 : forall w, get_extra x3 w = if v =? w then Some e else get_extra x2 w).
    { intros w. unfold x3, get_extra. simpl. destruct (Nat.eqb_spec v w) as [->|N].
      - apply nth_error_set_nth_eq; auto.
      - apply nth_error_set_nth_neq; auto. }
    assert (I3 : forall w, idx x3 w = idx x2 w).
    { intros w. unfold idx. rewrite G3. destruct (Nat.eqb_spec v w) as [<-|]; auto. rewrite G2. auto. }
    assert (L3 : forall w, low x3 w = low x2 w).
    { intros w. unfold low. rewrite G3. destruct (Nat.eqb_spec v w) as [<-|]; auto. rewrite G2. auto. }
    assert (Cc : concat (x_scc x3) = concat (x_scc x) ++ seg ++ [v]).
    { simpl. rewrite concat_app, Sg. simpl. rewrite <- app_assoc. auto. }
    pose proof B as [B1 B2 B3 B4 B5].
    split; [|split; [|split; [|split; [|split]]]].
    - split; auto.
      + simpl. rewrite set_nth_length. auto.
      + intros w i. rewrite I3. apply B2.
      + intros w. unfold ons. rewrite G3. destruct (Nat.eqb_spec v w) as [<-|N]; simpl; [split; [discriminate|tauto]|].
        change (ons x2 w = true <-> In w (x_stk x)). rewrite B3, S. simpl. split; [intros [J|J]; [contradiction|auto]|auto].
      + intros w J. rewrite I3. apply B4. rewrite S. simpl. auto.
      + intros w. simpl x_scc. rewrite concat_app, in_app_iff, B5, I3, S. simpl.
        destruct (Nat.eq_dec v w) as [<-|N]; [|tauto].
        split; [|tauto]. intros _. split; auto. congruence.
    - reflexivity.
    - split; [simpl; lia|]. split; [|split].
      + intros u i E. rewrite I3. assert (u <> v) by congruence. apply (K _ _ H E).
      + intros u i E. rewrite L3. assert (u <> v) by congruence. apply (K _ _ H E).
      + eauto.
    - rewrite Cc. apply explained_snoc; auto. rewrite <- Sg. auto.
    - rewrite Cc, !in_app_iff. simpl. auto.
    - exists (x_index x). rewrite L3, L. auto.
  Qed.

  Lemma explore_dfs : forall fuel n k x x', explore_all g fuel (seq k n) x = Some x' ->
    AI x -> x_stk x = [] -> explained (concat (x_scc x)) -> (forall j, j < k -> idx x j <> None) ->
    explained (concat (x_scc x')).
  Proof.
    intros fuel. induction n as [|n IH]; intros k x x' H A Sk Ex V; simpl in H; [inversion H; subst; auto|].
    destruct (get_extra x k) as [e|] eqn:G; [|discriminate].
    destruct (e_index e) as [i|] eqn:Ie.
    - apply (IH (S k) x x' H A Sk Ex). intros j L. destruct (Nat.eq_dec j k) as [->|]; [unfold idx; rewrite G; congruence|].
      apply V. lia.
    - destruct (scc_run g fuel k x) as [x1|] eqn:R; [|discriminate].
      destruct (run_dfs fuel k x x1 R A) as (A1 & S1 & (Q1 & Q2 & Q3 & Q4) & Ex1 & J & _); auto.
      + unfold idx. rewrite G. auto.
      + rewrite Sk. intros u [].
      + apply en_root. intros j L. apply (a_done _ A). split; auto. rewrite Sk. auto.
      + apply (IH (S k) x1 x' H A1); auto; [congruence|]. intros j L. destruct (Nat.eq_dec j k) as [->|].
        * apply (a_done _ A1) in J. tauto.
        * assert (N : idx x j <> None) by (apply V; lia). destruct (idx x j) eqn:E; [|congruence]. rewrite (Q2 _ _ E). congruence.
  Qed.

  Theorem sccs_explained : forall scc, sccs g = Some scc -> explained (concat scc).
  Proof.
    unfold sccs. intros scc H. destruct (explore_all _ _ _ _) as [x|] eqn:E; [|discriminate]. inversion H; subst.
    refine (explore_dfs _ _ _ _ _ E _ _ _ _).
    - assert (Gi : forall v, idx (explorer_init (length g)) v = None /\ ons (explorer_init (length g)) v = false).
      { intros v. unfold idx, ons, get_extra, explorer_init. simpl. destruct (nth_error (repeat _ _) v) eqn:Ev; auto.
        apply nth_repeat_inv in Ev. subst. auto. }
      split; simpl.
      + apply repeat_length.
      + intros v i. rewrite (proj1 (Gi v)). discriminate.
      + intros v. rewrite (proj2 (Gi v)). split; [discriminate|tauto].
      + intros v [].
      + intros v. rewrite (proj1 (Gi v)). tauto.
    - reflexivity.
    - apply explained_nil.
    - intros j L. lia.
  Qed.
End Dfs.
