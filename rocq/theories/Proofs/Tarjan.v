(** Correctness of the strongly connected components algorithm. *)
From Coq Require Import List Arith Bool Lia Permutation Sorting.Sorted.
From Verif Require Import Model.Base Model.Graph Spec.GraphSpec Proofs.InterpBasics.
Import ListNotations.

Definition idx (x : explorer) (v : nat) : option nat :=
  match get_extra x v with Some e => e_index e | None => None end.
Definition low (x : explorer) (v : nat) : option nat :=
  match get_extra x v with Some e => e_low e | None => None end.
Definition ons (x : explorer) (v : nat) : bool :=
  match get_extra x v with Some e => e_on_stack e | None => false end.

Lemma reach_trans : forall g u v w, reach g u v -> reach g v w -> reach g u w.
Proof. induction 1; intros; auto. econstructor; eauto. Qed.
Lemma reach_edge : forall g u v, edge g u v -> reach g u v.
Proof. intros. econstructor; eauto. constructor. Qed.

Lemma nodup_app : forall {A} (l1 l2 : list A), NoDup l1 -> NoDup l2 ->
  (forall a, In a l1 -> ~ In a l2) -> NoDup (l1 ++ l2).
Proof.
  induction 1 as [|a l1 N H IH]; intros H2 D; simpl; auto. constructor.
  - rewrite in_app_iff. intros [J|J]; auto. apply (D a); simpl; auto.
  - apply IH; auto. intros b J. apply D. simpl; auto.
Qed.

Section Tarjan.
  Variable g : list (list nat).
  Let nb := length g.
  Hypothesis targets : forall u w, edge g u w -> w < nb.
  Notation edge := (edge g).
  Notation reach := (reach g).

  Definition gt_idx (x : explorer) (a b : nat) : Prop :=
    forall i j, idx x a = Some i -> idx x b = Some j -> j < i.

  (** [comps_ok cs]: components are strongly connected, and only point to
      themselves or to earlier components. *)
  Definition comps_ok (cs : list (list nat)) : Prop :=
    forall pre c post, cs = pre ++ c :: post ->
      c <> [] /\
      (forall a b, In a c -> In b c -> reach a b) /\
      (forall a b, In a c -> edge a b -> In b c \/ In b (concat pre)).

  Record Inv (x : explorer) : Prop := mkInv {
    i_len : length (x_extra x) = nb;
    i_lt : forall v i, idx x v = Some i -> i < x_index x;
    i_inj : forall v w i, idx x v = Some i -> idx x w = Some i -> v = w;
    i_ons : forall v, ons x v = true <-> In v (x_stk x);
    i_vis : forall v, In v (x_stk x) -> idx x v <> None;
    i_sorted : StronglySorted (gt_idx x) (x_stk x);
    i_done : forall v, In v (concat (x_scc x)) <-> (idx x v <> None /\ ~ In v (x_stk x));
    i_nodup : NoDup (concat (x_scc x));
    i_comps : comps_ok (x_scc x);
    i_low : forall v, In v (x_stk x) -> exists l i u, low x v = Some l /\ idx x v = Some i /\ l <= i /\
              In u (x_stk x) /\ idx x u = Some l /\ reach v u }.

  Definition run_post (v : nat) (x x' : explorer) : Prop :=
    Inv x' /\
    (forall u i, idx x u = Some i -> idx x' u = Some i) /\
    x_index x <= x_index x' /\
    idx x' v <> None /\
    (forall u, idx x u = None -> idx x' u <> None ->
       reach v u /\ (forall w, edge u w -> idx x' w <> None)) /\
    (forall u, idx x u <> None -> low x' u = low x u) /\
    (forall u i, idx x u = None -> idx x' u = Some i -> x_index x <= i) /\
    exists new, x_stk x' = new ++ x_stk x /\ (forall u, In u new -> idx x u = None) /\
      ((new = [] /\ low x' v = idx x' v) \/
       (In v new /\ exists lv, low x' v = Some lv /\
          (forall u, In u new -> exists lu iu, low x' u = Some lu /\ idx x' u = Some iu /\ lu < iu /\ lv <= lu) /\
          (forall u w i, In u new -> edge u w -> In w (x_stk x') -> idx x' w = Some i -> lv <= i))).

  (** Number of unvisited vertices. *)
  Definition unv (x : explorer) : nat :=
    length (filter (fun v => match idx x v with None => true | Some _ => false end) (seq 0 nb)).

  Lemma filter_le : forall (l : list nat) (p q : nat -> bool),
    (forall a, q a = true -> p a = true) -> length (filter q l) <= length (filter p l).
  Proof.
    induction l as [|a l IH]; intros p q H; simpl; auto.
    specialize (IH p q H). destruct (q a) eqn:Q.
    - rewrite (H a Q). simpl. lia.
    - destruct (p a); simpl; lia.
  Qed.

  Lemma filter_lt : forall (l : list nat) (p q : nat -> bool) b,
    (forall a, q a = true -> p a = true) -> In b l -> p b = true -> q b = false ->
    length (filter q l) < length (filter p l).
  Proof.
    induction l as [|a l IH]; intros p q b H I P Q; simpl in *; [tauto|].
    destruct I as [->|I].
    - rewrite P, Q. simpl. pose proof (filter_le l p q H). lia.
    - specialize (IH p q b H I P Q). destruct (q a) eqn:Qa.
      + rewrite (H a Qa). simpl. lia.
      + destruct (p a); simpl; lia.
  Qed.

  Lemma unv_mono : forall x x', (forall u i, idx x u = Some i -> idx x' u = Some i) -> unv x' <= unv x.
  Proof.
    intros x x' H. unfold unv. apply filter_le. intros a.
    destruct (idx x a) eqn:E; auto. rewrite (H _ _ E). auto.
  Qed.

  Lemma unv_lt : forall x x' v, (forall u i, idx x u = Some i -> idx x' u = Some i) ->
    v < nb -> idx x v = None -> idx x' v <> None -> unv x' < unv x.
  Proof.
    intros x x' v H L N N'. unfold unv. apply filter_lt with (b := v).
    - intros a. destruct (idx x a) eqn:E; auto. rewrite (H _ _ E). auto.
    - apply in_seq. lia.
    - rewrite N. auto.
    - destruct (idx x' v); congruence.
  Qed.

  Lemma get_set : forall x v e w, v < length (x_extra x) ->
    get_extra (set_extra x v e) w = if v =? w then Some e else get_extra x w.
  Proof.
    intros. unfold get_extra, set_extra. simpl.
    destruct (Nat.eqb_spec v w) as [->|N].
    - apply nth_error_set_nth_eq; auto.
    - apply nth_error_set_nth_neq; auto.
  Qed.

  Lemma idx_some_lt : forall x v i, idx x v = Some i -> v < length (x_extra x).
  Proof.
    unfold idx, get_extra. intros x v i H. destruct (nth_error (x_extra x) v) eqn:E; [|discriminate].
    eauto using nth_error_some_lt.
  Qed.

  Lemma sorted_app : forall {A} (R : A -> A -> Prop) l1 l2,
    StronglySorted R (l1 ++ l2) ->
    StronglySorted R l2 /\ (forall a b, In a l1 -> In b l2 -> R a b).
  Proof.
    induction l1 as [|a l1 IH]; intros l2 H; simpl in *.
    - split; auto. intros a b [].
    - inversion H; subst. destruct (IH _ H2) as [S1 S2]. split; auto.
      intros x b [->|I] J; auto. eapply Forall_forall in H3; eauto. apply in_app_iff; auto.
  Qed.

  Lemma sorted_ext : forall {A} (R R' : A -> A -> Prop) l,
    (forall a b, In a l -> In b l -> R a b -> R' a b) -> StronglySorted R l -> StronglySorted R' l.
  Proof.
    induction l as [|a l IH]; intros H S; constructor; inversion S; subst.
    - apply IH; auto. intros; apply H; simpl; auto.
    - rewrite Forall_forall in *. intros b I. apply H; simpl; auto.
  Qed.

  Lemma sorted_nodup : forall x, Inv x -> NoDup (x_stk x).
  Proof.
    intros x I. pose proof (i_vis x I) as V. pose proof (i_sorted x I) as S. revert V S.
    generalize (x_stk x). induction l as [|a l IH]; intros V S; constructor; inversion S; subst.
    - intros J. rewrite Forall_forall in H2. specialize (H2 _ J).
      destruct (idx x a) eqn:E; [|eapply V; simpl; eauto]. specialize (H2 _ _ E E). lia.
    - apply IH; auto. intros; apply V; simpl; auto.
  Qed.

  (** ** Updating the low link of a vertex of the stack *)
  Lemma set_low_inv : forall x v e l u,
    Inv x -> get_extra x v = Some e -> e_index e <> None -> In v (x_stk x) ->
    In u (x_stk x) -> idx x u = Some l -> reach v u ->
    (forall i, e_index e = Some i -> l <= i) ->
    Inv (set_extra x v (mkExtra (e_on_stack e) (Some l) (e_index e))).
  Proof.
    intros x v e l u I G V S Su Iu R Le.
    assert (Lt : v < length (x_extra x)) by (unfold get_extra in G; eauto using nth_error_some_lt).
    set (x' := set_extra _ _ _).
    assert (Ei : forall w, idx x' w = idx x w).
    { intros w. unfold idx, x'. rewrite get_set by auto. destruct (Nat.eqb_spec v w) as [->|]; auto. rewrite G. auto. }
    assert (Eo : forall w, ons x' w = ons x w).
    { intros w. unfold ons, x'. rewrite get_set by auto. destruct (Nat.eqb_spec v w) as [->|]; auto. rewrite G. auto. }
    assert (El : forall w, low x' w = if v =? w then Some l else low x w).
    { intros w. unfold low, x'. rewrite get_set by auto. destruct (Nat.eqb_spec v w) as [->|]; auto. }
    destruct I. constructor; change (x_index x') with (x_index x); change (x_stk x') with (x_stk x);
      change (x_scc x') with (x_scc x); auto.
    - unfold x'; simpl. rewrite set_nth_length; auto.
    - intros w i. rewrite Ei. eauto.
    - intros w w' i. rewrite !Ei. eauto.
    - intros w. rewrite Eo. auto.
    - intros w. rewrite Ei. auto.
    - eapply sorted_ext; [|eassumption]. unfold gt_idx. intros a b _ _ H i j. rewrite !Ei. auto.
    - intros w. rewrite Ei. auto.
    - intros w J. rewrite El. destruct (Nat.eqb_spec v w) as [<-|N].
      + destruct (idx x v) as [i|] eqn:E; [|exfalso; eapply i_vis0; eauto].
        exists l, i, u. repeat split; auto; rewrite ?Ei; auto.
        apply Le. unfold idx in E. rewrite G in E. auto.
      + destruct (i_low0 w J) as (l' & i' & u' & A & B & C & D & E & F).
        exists l', i', u'. rewrite !Ei. auto 10.
  Qed.

  (** ** Popping a component *)
  Lemma pop_spec : forall v seg base ex acc,
    ~ In v seg -> (forall u, In u (seg ++ [v]) -> u < length ex) ->
    exists ex', pop_until v (seg ++ v :: base) ex acc = Some (base, ex', acc ++ seg ++ [v]) /\
      length ex' = length ex /\
      forall u, match nth_error ex u, nth_error ex' u with
                | Some e, Some e' => e_low e' = e_low e /\ e_index e' = e_index e /\
                    (In u (seg ++ [v]) -> e_on_stack e' = false) /\
                    (~ In u (seg ++ [v]) -> e_on_stack e' = e_on_stack e)
                | None, None => True
                | _, _ => False
                end.
  Proof.
    assert (one : forall (ex : list extra) v u e, nth_error ex v = Some e ->
      match nth_error ex u, nth_error (set_nth v (mkExtra false (e_low e) (e_index e)) ex) u with
      | Some a, Some a' => e_low a' = e_low a /\ e_index a' = e_index a /\
          (u = v -> e_on_stack a' = false) /\ (u <> v -> e_on_stack a' = e_on_stack a)
      | None, None => True | _, _ => False end).
    { intros ex v u e E. destruct (Nat.eq_dec v u) as [<-|N].
      - rewrite nth_error_set_nth_eq by eauto using nth_error_some_lt. rewrite E. simpl. intuition congruence.
      - rewrite nth_error_set_nth_neq by auto. destruct (nth_error ex u); intuition congruence. }
    induction seg as [|w seg IH]; intros base ex acc N L; simpl.
    - destruct (nth_error ex v) as [e|] eqn:E.
      2:{ apply nth_error_None in E. specialize (L v). simpl in L. lia. }
      rewrite Nat.eqb_refl. eexists; split; [reflexivity|]. split; [apply set_nth_length|].
      intros u. specialize (one ex v u e E).
      destruct (nth_error ex u), (nth_error _ u); try tauto.
      destruct one as (A & B & C & D). repeat split; auto.
      intros [|[]]; auto.
    - destruct (nth_error ex w) as [e|] eqn:E.
      2:{ apply nth_error_None in E. specialize (L w). simpl in L. lia. }
      destruct (Nat.eqb_spec w v) as [->|Nw]; [exfalso; apply N; simpl; auto|].
      destruct (IH base (set_nth w (mkExtra false (e_low e) (e_index e)) ex) (acc ++ [w])) as (ex' & P & Len & A).
      { simpl in N. tauto. }
      { intros u I. rewrite set_nth_length. apply L. simpl. auto. }
      exists ex'. rewrite P. rewrite <- !app_assoc. split; auto. split; [rewrite Len, set_nth_length; auto|].
      intros u. specialize (one ex w u e E). specialize (A u).
      destruct (nth_error ex u), (nth_error (set_nth w _ ex) u), (nth_error ex' u); try tauto.
      destruct one as (A1 & B1 & C1 & D1), A as (A2 & B2 & C2 & D2).
      rewrite A2, B2. repeat split; auto.
      + intros [->|J]; auto. destruct (in_dec Nat.eq_dec u (seg ++ [v])); auto. rewrite D2; auto.
      + intros J. rewrite D2, D1; auto.
  Qed.

  Lemma concat_app1 : forall (l : list (list nat)) c, concat (l ++ [c]) = concat l ++ c.
  Proof. intros. rewrite concat_app. simpl. rewrite app_nil_r. auto. Qed.

  Lemma comps_ok_snoc : forall cs c,
    comps_ok cs -> c <> [] -> (forall a b, In a c -> In b c -> reach a b) ->
    (forall a b, In a c -> edge a b -> In b c \/ In b (concat cs)) ->
    comps_ok (cs ++ [c]).
  Proof.
    intros cs c H N A B pre c' post E.
    destruct post as [|p post].
    - apply app_inj_tail in E. destruct E as [<- <-]. auto.
    - assert (P : p :: post <> []) by discriminate.
      destruct (exists_last P) as (post' & z & E'). rewrite E' in E.
      replace (pre ++ c' :: post' ++ [z]) with ((pre ++ c' :: post') ++ [z]) in E
        by (rewrite <- app_assoc; auto).
      apply app_inj_tail in E. destruct E as [-> ->]. eapply H; eauto.
  Qed.

  Lemma pop_inv : forall x v seg base,
    Inv x -> x_stk x = seg ++ v :: base -> low x v = idx x v ->
    (forall u, In u seg -> reach v u) ->
    (forall u, In u seg -> exists lu iu lv, low x v = Some lv /\ low x u = Some lu /\ idx x u = Some iu /\ lu < iu /\ lv <= lu) ->
    (forall u w, In u (seg ++ [v]) -> edge u w -> idx x w <> None) ->
    (forall u w i lv, In u (seg ++ [v]) -> edge u w -> In w (x_stk x) -> low x v = Some lv -> idx x w = Some i -> lv <= i) ->
    exists ex, pop_until v (x_stk x) (x_extra x) [] = Some (base, ex, seg ++ [v]) /\
      let x' := mkExpl (x_index x) base ex (x_scc x ++ [seg ++ [v]]) in
      Inv x' /\ (forall u, idx x' u = idx x u) /\ (forall u, low x' u = low x u).
  Proof.
    intros x v seg base I S Lv Rv Fin Vis Low.
    pose proof (sorted_nodup x I) as ND. rewrite S in ND.
    assert (Nv : ~ In v seg).
    { intros J. apply NoDup_remove_2 in ND. apply ND. apply in_app_iff. auto. }
    assert (Lt : forall u, In u (x_stk x) -> u < length (x_extra x)).
    { intros u J. destruct (idx x u) eqn:E; [eauto using idx_some_lt|]. exfalso. eapply (i_vis x I); eauto. }
    destruct (pop_spec v seg base (x_extra x) []) as (ex & P & Len & A); auto.
    { intros u J. apply Lt. rewrite S. rewrite in_app_iff in *. simpl in *. tauto. }
    exists ex. rewrite S. split; auto. intros x'.
    assert (Ei : forall u, idx x' u = idx x u).
    { intros u. unfold idx, get_extra. specialize (A u). unfold x'; simpl.
      destruct (nth_error (x_extra x) u), (nth_error ex u); try tauto. }
    assert (El : forall u, low x' u = low x u).
    { intros u. unfold low, get_extra. specialize (A u). unfold x'; simpl.
      destruct (nth_error (x_extra x) u), (nth_error ex u); try tauto. }
    assert (Eo : forall u, ons x' u = if in_dec Nat.eq_dec u (seg ++ [v]) then false else ons x u).
    { intros u. unfold ons, get_extra. specialize (A u). unfold x'; simpl.
      destruct (nth_error (x_extra x) u), (nth_error ex u); try tauto;
      destruct (in_dec Nat.eq_dec u (seg ++ [v])); try tauto. }
    split; [|split; auto].
    pose proof (i_sorted x I) as So. rewrite S in So.
    apply sorted_app in So. destruct So as [So1 So2].
    assert (So3 := So1). inversion So3 as [|a b So4 So5]; subst a b. rewrite Forall_forall in So5.
    assert (Eiv : exists iv, idx x v = Some iv).
    { destruct (idx x v) eqn:E; eauto. exfalso. eapply (i_vis x I v); auto. rewrite S. apply in_app_iff. simpl. auto. }
    destruct Eiv as (iv & Eiv). rewrite Eiv in Lv.
    (* a vertex of the stack is in the segment iff its index is at least that of v *)
    assert (Seg : forall u i, In u (x_stk x) -> idx x u = Some i -> iv <= i -> In u (seg ++ [v])).
    { intros u i J E L. rewrite S, in_app_iff in J. simpl in J. rewrite in_app_iff. simpl.
      destruct J as [J|[J|J]]; auto. specialize (So5 _ J _ _ Eiv E). lia. }
    assert (Seg' : forall u i, In u base -> idx x u = Some i -> i < iv).
    { intros u i J E. apply (So5 _ J _ _ Eiv E). }
    assert (Toreach : forall n u i, i <= n -> In u seg -> idx x u = Some i -> reach u v).
    { induction n as [|n IHn]; intros u i L J E.
      - destruct (Fin u J) as (lu & iu & lv & E1 & E2 & E3 & L1 & L2). rewrite E in E3. inversion E3; subst. lia.
      - destruct (Fin u J) as (lu & iu & lv & E1 & E2 & E3 & L1 & L2).
        rewrite E in E3. inversion E3; subst iu. rewrite Lv in E1. inversion E1; subst lv.
        destruct (i_low x I u) as (l' & i' & w & F1 & F2 & F3 & F4 & F5 & F6).
        { rewrite S. apply in_app_iff. auto. }
        rewrite E2 in F1. inversion F1; subst l'.
        assert (K : In w (seg ++ [v])) by (eapply Seg; eauto).
        apply in_app_iff in K. destruct K as [K|[->|[]]]; auto.
        eapply reach_trans; [exact F6|]. eapply (IHn w lu); eauto. lia. }
    assert (Reach1 : forall u, In u (seg ++ [v]) -> reach u v).
    { intros u J. apply in_app_iff in J. destruct J as [J|[->|[]]]; [|constructor].
      destruct (Fin u J) as (lu & iu & lv & _ & _ & E & _). eauto. }
    assert (Reach2 : forall u, In u (seg ++ [v]) -> reach v u).
    { intros u J. apply in_app_iff in J. destruct J as [J|[->|[]]]; [auto|constructor]. }
    assert (InS : forall u, In u (seg ++ v :: base) <-> In u (seg ++ [v]) \/ In u base).
    { intros u. rewrite !in_app_iff. simpl. tauto. }
    assert (Disj : forall u, In u (seg ++ [v]) -> ~ In u base).
    { intros u J K. replace (seg ++ v :: base) with ((seg ++ [v]) ++ base) in ND by (rewrite <- app_assoc; auto).
      clear - ND J K. induction (seg ++ [v]) as [|a l IH]; simpl in *; auto.
      inversion ND; subst. destruct J as [->|J]; auto. apply H1. apply in_app_iff; auto. }
    pose proof I as I0. destruct I0. constructor; change (x_index x') with (x_index x); change (x_stk x') with base;
      change (x_scc x') with (x_scc x ++ [seg ++ [v]]).
    - change (x_extra x') with ex. rewrite Len. auto.
    - intros u i. rewrite Ei. eauto.
    - intros u w i. rewrite !Ei. eauto.
    - intros u. rewrite Eo. destruct (in_dec Nat.eq_dec u (seg ++ [v])) as [J|J].
      + split; [discriminate|]. intros K. exfalso. eapply Disj; eauto.
      + rewrite i_ons0, S, InS. tauto.
    - intros u J. rewrite Ei. apply i_vis0. rewrite S, InS. auto.
    - eapply sorted_ext; [|exact So4]. unfold gt_idx. intros a b _ _ H i j. rewrite !Ei. auto.
    - intros u. rewrite concat_app1, in_app_iff, i_done0, Ei, S, InS. split.
      + intros [[H1 H2]|H]; [tauto|]. split; [|apply Disj; auto].
        apply i_vis0. rewrite S, InS. auto.
      + intros [H1 H2]. destruct (in_dec Nat.eq_dec u (seg ++ [v])); tauto.
    - rewrite concat_app1. apply nodup_app; auto.
      + replace (seg ++ v :: base) with ((seg ++ [v]) ++ base) in ND by (rewrite <- app_assoc; auto).
        clear - ND. induction (seg ++ [v]) as [|a l IH]; simpl in *; constructor; inversion ND; subst; auto.
        intros J. apply H1. apply in_app_iff; auto.
      + intros u J K. apply i_done0 in J. apply J. rewrite S, InS. auto.
    - apply comps_ok_snoc; auto.
      + destruct seg; discriminate.
      + intros a b Ja Jb. eapply reach_trans; [apply Reach1|apply Reach2]; auto.
      + intros a b Ja E. destruct (in_dec Nat.eq_dec b (x_stk x)) as [K|K].
        * left. destruct (idx x b) as [ib|] eqn:Eb; [|exfalso; eapply i_vis0; eauto].
          eapply Seg; eauto.
        * right. apply i_done0. split; auto. eapply Vis; eauto.
    - intros u J. destruct (i_low0 u) as (l & i & w & F1 & F2 & F3 & F4 & F5 & F6).
      { rewrite S, InS. auto. }
      exists l, i, w. rewrite !Ei, El. repeat split; auto.
      rewrite S, InS in F4. destruct F4 as [F4|F4]; auto. exfalso.
      pose proof (Seg' _ _ J F2).
      assert (iv <= l); [|lia].
      apply in_app_iff in F4. destruct F4 as [F4|[<-|[]]].
      + specialize (So2 w v F4 (or_introl eq_refl) _ _ F5 Eiv). lia.
      + rewrite Eiv in F5. inversion F5. lia.
  Qed.

  (** ** The loop over the children *)
  Definition seg_ok (x : explorer) (lv : nat) (seg : list nat) : Prop :=
    (forall u, In u seg -> exists lu iu, low x u = Some lu /\ idx x u = Some iu /\ lu < iu /\ lv <= lu) /\
    (forall u w i, In u seg -> edge u w -> In w (x_stk x) -> idx x w = Some i -> lv <= i).

  Record Loop (v : nat) (base : list nat) (x0 x : explorer) (done : list nat) : Prop := mkLoop {
    l_inv : Inv x;
    l_mono : x_index x0 <= x_index x;
    l_idx : forall u i, idx x0 u = Some i -> idx x u = Some i;
    l_new : forall u, idx x0 u = None -> idx x u <> None ->
              reach v u /\ (forall w, edge u w -> idx x w <> None);
    l_low : forall u, idx x0 u <> None -> u <> v -> low x u = low x0 u;
    l_ge : forall u i, idx x0 u = None -> idx x u = Some i -> x_index x0 <= i;
    l_seg : exists seg lv iv, x_stk x = seg ++ v :: base /\ (forall u, In u seg -> idx x0 u = None) /\
              low x v = Some lv /\ idx x v = Some iv /\ lv <= iv /\ iv < x_index x0 /\
              seg_ok x lv seg /\
              (forall w, In w done -> idx x w <> None /\
                 (forall i, In w (x_stk x) -> idx x w = Some i -> lv <= i)) }.

  Lemma seg_ok_le : forall x lv lv' seg, seg_ok x lv seg -> lv' <= lv -> seg_ok x lv' seg.
  Proof.
    intros x lv lv' seg [A B] L. split.
    - intros u J. destruct (A u J) as (lu & iu & ?). exists lu, iu. intuition lia.
    - intros u w i J E K H. specialize (B u w i J E K H). lia.
  Qed.

  (** Replacing the low link of [v] by a smaller one that has a witness. *)
  Lemma loop_set : forall v base x0 x done e l u,
    Loop v base x0 x done -> get_extra x v = Some e ->
    In u (x_stk x) -> idx x u = Some l -> reach v u ->
    (forall lv, low x v = Some lv -> l <= lv) ->
    Loop v base x0 (set_extra x v (mkExtra (e_on_stack e) (Some l) (e_index e))) done.
  Proof.
    intros v base x0 x done e l u L G Su Iu R Le.
    assert (Lt : v < length (x_extra x)) by (unfold get_extra in G; eauto using nth_error_some_lt).
    set (x' := set_extra _ _ _).
    assert (Ei : forall w, idx x' w = idx x w).
    { intros w. unfold idx, x'. rewrite get_set by auto. destruct (Nat.eqb_spec v w) as [->|]; auto. rewrite G. auto. }
    assert (El : forall w, low x' w = if v =? w then Some l else low x w).
    { intros w. unfold low, x'. rewrite get_set by auto. destruct (Nat.eqb_spec v w) as [->|]; auto. }
    destruct L. destruct l_seg0 as (seg & lv & iv & S & N & Lv & Iv & Lei & Ivx & Sok & Dn).
    assert (Nv : ~ In v seg).
    { intros J. pose proof (sorted_nodup x l_inv0) as ND. rewrite S in ND.
      apply NoDup_remove_2 in ND. apply ND. apply in_app_iff. auto. }
    specialize (Le _ Lv).
    constructor.
    - eapply set_low_inv; eauto.
      + unfold idx in Iv. rewrite G in Iv. congruence.
      + rewrite S. apply in_app_iff. simpl. auto.
      + intros i E. unfold idx in Iv. rewrite G in Iv. assert (i = iv) by congruence. lia.
    - auto.
    - intros w i H. rewrite Ei. auto.
    - intros w H. rewrite Ei. intros H'. destruct (l_new0 w H H'). split; auto.
      intros z E. rewrite Ei. auto.
    - intros w H H'. rewrite El. destruct (Nat.eqb_spec v w); [congruence|auto].
    - intros w i. rewrite Ei. eauto.
    - exists seg, l, iv. change (x_stk x') with (x_stk x). rewrite El, Nat.eqb_refl, !Ei.
      repeat split; auto.
      + lia.
      + intros w J. destruct (proj1 Sok w J) as (lu & iu & A & B & C & D).
        exists lu, iu. rewrite El, Ei. destruct (Nat.eqb_spec v w) as [->|]; [tauto|]. repeat split; auto. lia.
      + intros a b i J E K. rewrite Ei. intros H. pose proof (proj2 Sok a b i J E K H). lia.
      + rewrite Ei. apply Dn; auto.
      + intros i K. rewrite Ei. intros H'. destruct (Dn w H) as [_ D]. specialize (D i K H'). lia.
  Qed.

  (** Running a child. *)
  Lemma loop_run : forall v base x0 x x1 done w,
    Loop v base x0 x done -> idx x w = None -> edge v w -> run_post w x x1 ->
    exists e lv lw l, get_extra x1 v = Some e /\ low x1 v = Some lv /\ low x1 w = Some lw /\
      e_low e = Some lv /\ l = Nat.min lv lw /\
      Loop v base x0 (set_extra x1 v (mkExtra (e_on_stack e) (Some l) (e_index e))) (w :: done).
  Proof.
    intros v base x0 x x1 done w L Nw E RP. destruct L.
    destruct l_seg0 as (seg & lv & iv & S & N & Lv & Iv & Lei & Ivx & Sok & Dn).
    destruct RP as (I1 & P1 & Pm & P2 & P3 & P4 & P5 & new & S1 & N1 & Alt).
    assert (Vis : forall u, In u (x_stk x) -> idx x u <> None) by (apply (i_vis x l_inv0)).
    assert (Back : forall u, idx x u <> None -> In u (x_stk x1) -> In u (x_stk x)).
    { intros u H J. rewrite S1, in_app_iff in J. destruct J as [J|J]; auto. exfalso. apply H. auto. }
    assert (Eq1 : forall u i, idx x u <> None -> idx x1 u = Some i -> idx x u = Some i).
    { intros u i H H'. destruct (idx x u) as [j|] eqn:Ej; [|congruence]. rewrite (P1 _ _ Ej) in H'. congruence. }
    assert (Lv1 : low x1 v = Some lv). { rewrite P4; auto. congruence. }
    assert (Iv1 : idx x1 v = Some iv) by auto.
    assert (G : exists e, get_extra x1 v = Some e /\ e_low e = Some lv /\ e_index e = Some iv).
    { unfold low, idx in Lv1, Iv1. destruct (get_extra x1 v); [|discriminate]. eauto. }
    destruct G as (e & G & Ge1 & Ge2).
    assert (Lw : exists lw iw, low x1 w = Some lw /\ idx x1 w = Some iw /\ iv < iw /\
       (new = [] /\ lw = iw \/ In w new /\ seg_ok x1 lw new)).
    { destruct (idx x1 w) as [iw|] eqn:Ew; [|congruence].
      assert (iv < iw).
      { pose proof (P5 _ _ Nw Ew). pose proof (i_lt x l_inv0 _ _ Iv). lia. }
      destruct Alt as [(-> & A)|(A & lw & B & C & D)].
      - exists iw, iw. auto 10.
      - exists lw, iw. repeat split; auto. right. split; auto. split; auto. }
    destruct Lw as (lw & iw & Lw & Iw & Lt & Alt').
    exists e, lv, lw, (Nat.min lv lw). do 5 (split; [solve [auto]|]).
    (* first, the loop invariant before the update of the low link of v *)
    assert (L1 : forall l u, In u (x_stk x1) -> idx x1 u = Some l -> reach v u -> l = Nat.min lv lw ->
       Loop v base x0 (set_extra x1 v (mkExtra (e_on_stack e) (Some l) (e_index e))) (w :: done)).
    { intros l u Ju Iu Ru El.
      set (x' := set_extra _ _ _).
      assert (Ltv : v < length (x_extra x1)) by (unfold get_extra in G; eauto using nth_error_some_lt).
      assert (Ei : forall z, idx x' z = idx x1 z).
      { intros z. unfold idx, x'. rewrite get_set by auto. destruct (Nat.eqb_spec v z) as [->|]; auto. rewrite G. auto. }
      assert (Elo : forall z, low x' z = if v =? z then Some l else low x1 z).
      { intros z. unfold low, x'. rewrite get_set by auto. destruct (Nat.eqb_spec v z) as [->|]; auto. }
      constructor.
      - apply (set_low_inv x1 v e l u); auto.
        + congruence.
        + rewrite S1, S. rewrite !in_app_iff. simpl. auto.
        + intros i Hi. assert (i = iv) by congruence. lia.
      - change (x_index x') with (x_index x1). lia.
      - intros z i H. rewrite Ei. auto.
      - intros z H. rewrite Ei. intros H'. destruct (idx x z) as [iz|] eqn:Ez.
        + assert (V : idx x z <> None) by congruence. destruct (l_new0 z H V) as [A B]. split; auto.
          intros y Ey. rewrite Ei. specialize (B y Ey). destruct (idx x y) eqn:Exy; [|congruence].
          rewrite (P1 _ _ Exy). discriminate.
        + destruct (P3 z Ez H') as [A B]. split.
          * apply (reach_step g v w z); auto.
          * intros y Ey. rewrite Ei. auto.
      - intros z H Hz. rewrite Elo. destruct (Nat.eqb_spec v z); [congruence|].
        destruct (idx x0 z) as [iz|] eqn:Ez; [|congruence].
        rewrite P4; [|rewrite (l_idx0 _ _ Ez); discriminate]. apply l_low0; congruence.
      - intros z i H. rewrite Ei. intros H'. destruct (idx x z) as [iz|] eqn:Ez.
        + pose proof (P1 _ _ Ez). assert (i = iz) by congruence. subst. eauto.
        + pose proof (P5 _ _ Ez H').
          lia.
      - exists (new ++ seg), l, iv. change (x_stk x') with (x_stk x1). rewrite Elo, Nat.eqb_refl, !Ei.
        assert (Nvn : ~ In v new). { intros J. specialize (N1 v J). congruence. }
        assert (Nvs : ~ In v seg).
        { intros J. pose proof (sorted_nodup x l_inv0) as ND. rewrite S in ND.
          apply NoDup_remove_2 in ND. apply ND. apply in_app_iff. auto. }
        repeat split; auto.
        + rewrite S1, S, <- app_assoc. auto.
        + intros z J. apply in_app_iff in J. destruct J as [J|J]; auto.
          specialize (N1 z J). destruct (idx x0 z) eqn:Ez; auto. rewrite (l_idx0 _ _ Ez) in N1. discriminate.
        + lia.
        + intros z J. rewrite Elo, Ei. destruct (Nat.eqb_spec v z) as [->|Nz].
          { rewrite in_app_iff in J. tauto. }
          apply in_app_iff in J. destruct J as [J|J].
          * destruct Alt' as [[-> _]|[_ [A _]]]; [destruct J|]. destruct (A z J) as (lu & iu & ? & ? & ? & ?).
            exists lu, iu. repeat split; auto. lia.
          * destruct (proj1 Sok z J) as (lu & iu & A & B & C & D). exists lu, iu.
            rewrite P4 by congruence. repeat split; auto. lia.
        + intros a b i J Ea K. rewrite Ei. intros H. apply in_app_iff in J. destruct J as [J|J].
          * destruct Alt' as [[-> _]|[_ [_ A]]]; [destruct J|]. pose proof (A a b i J Ea K H). lia.
          * assert (Vb : idx x b <> None).
            { assert (Va : idx x a <> None). { apply Vis. rewrite S. apply in_app_iff. auto. }
              destruct (l_new0 a (N a J) Va) as [_ B]. auto. }
            pose proof (proj2 Sok a b i J Ea (Back b Vb K) (Eq1 b i Vb H)). lia.
        + rewrite Ei. destruct H as [<-|H]; [congruence|]. destruct (Dn w0 H) as [A _].
          destruct (idx x w0) eqn:Ez; [|congruence]. rewrite (P1 _ _ Ez). discriminate.
        + intros i K. rewrite Ei. intros H'. destruct H as [<-|H].
          * destruct Alt' as [[En Elw]|[Jw [A _]]].
            { (* the child was popped: it is not on the stack *)
              exfalso. rewrite S1, En in K. simpl in K. apply (Vis w K). auto. }
            destruct (A w Jw) as (lu & iu & ? & ? & ? & ?). assert (lu = lw) by congruence.
            assert (iu = i) by congruence. lia.
          * destruct (Dn w0 H) as [A B]. specialize (B i (Back _ A K) (Eq1 _ _ A H')). lia. }
    (* the witness for the new low link *)
    destruct (Nat.le_gt_cases lv lw) as [Le|Gt].
    - replace (Nat.min lv lw) with lv by lia.
      destruct (i_low x l_inv0 v) as (l' & i' & u & F1 & F2 & F3 & F4 & F5 & F6).
      { rewrite S. apply in_app_iff. simpl. auto. }
      assert (l' = lv) by congruence. subst l'.
      apply (L1 lv u); auto; [|lia]. rewrite S1. apply in_app_iff. auto.
    - replace (Nat.min lv lw) with lw by lia.
      destruct Alt' as [[-> ->]|[Jw A]]; [lia|].
      destruct (i_low x1 I1 w) as (l' & i' & u & F1 & F2 & F3 & F4 & F5 & F6).
      { rewrite S1. apply in_app_iff. auto. }
      assert (l' = lw) by congruence. subst l'.
      apply (L1 lw u); auto; [|lia]. econstructor; eauto.
  Qed.

  Lemma children_ok : forall run v base x0 l x done,
    (forall w y, w < nb -> idx y w = None -> Inv y -> unv y <= unv x0 ->
       exists y', run w y = Some y' /\ run_post w y y') ->
    (forall w, In w l -> edge v w) ->
    Loop v base x0 x done ->
    exists x', children run v l x = Some x' /\ Loop v base x0 x' (rev l ++ done).
  Proof.
    induction l as [|w l IH]; intros x done Hrun Hed L; simpl.
    - eauto.
    - assert (Ew : edge v w) by (apply Hed; simpl; auto).
      assert (Lw : w < nb) by eauto.
      assert (Gw : exists ew, get_extra x w = Some ew).
      { unfold get_extra. destruct (nth_error (x_extra x) w) eqn:E; eauto.
        apply nth_error_None in E. rewrite (i_len x (l_inv _ _ _ _ _ L)) in E. lia. }
      destruct Gw as (ew & Gw). rewrite Gw.
      assert (Cont : forall y, Loop v base x0 y (w :: done) ->
        exists x', children run v l y = Some x' /\ Loop v base x0 x' ((rev l ++ [w]) ++ done)).
      { intros y Ly. rewrite <- app_assoc. simpl. apply IH; auto. intros z J. apply Hed. simpl; auto. }
      destruct (e_index ew) as [iw|] eqn:Eiw.
      + assert (Iw : idx x w = Some iw) by (unfold idx; rewrite Gw; auto).
        destruct (e_on_stack ew) eqn:Eo.
        * assert (Jw : In w (x_stk x)).
          { apply (i_ons x (l_inv _ _ _ _ _ L)). unfold ons. rewrite Gw. auto. }
          destruct (l_seg _ _ _ _ _ L) as (seg & lv & iv & S & N & Lv & Iv & Lei & Ivx & Sok & Dn).
          assert (Gv : exists ev, get_extra x v = Some ev /\ e_low ev = Some lv /\ e_index ev = Some iv).
          { unfold low, idx in Lv, Iv. destruct (get_extra x v); [eauto|discriminate]. }
          destruct Gv as (ev & Gv & Ge1 & Ge2). rewrite Gv, Ge1. cbn [opt_min]. apply Cont.
          assert (L1 : forall m, m = Nat.min lv iw -> exists u, In u (x_stk x) /\ idx x u = Some m /\ reach v u).
          { intros m Em. destruct (Nat.le_gt_cases lv iw) as [Le|Gt].
            - rewrite Nat.min_l in Em by lia. subst m.
              destruct (i_low x (l_inv _ _ _ _ _ L) v) as (l' & i' & u & F1 & F2 & F3 & F4 & F5 & F6).
              { rewrite S. apply in_app_iff. simpl. auto. }
              assert (l' = lv) by congruence. subst. eauto.
            - rewrite Nat.min_r in Em by lia. subst m. exists w. repeat split; auto. apply reach_edge; auto. }
          destruct (L1 _ eq_refl) as (u & Ju & Iu & Ru).
          assert (L2 : Loop v base x0 (set_extra x v (mkExtra (e_on_stack ev) (Some (Nat.min lv iw)) (e_index ev))) done).
          { eapply loop_set; eauto. intros lv' E. assert (lv' = lv) by congruence. lia. }
          set (x2 := set_extra _ _ _) in *.
          assert (Ltv : v < length (x_extra x)) by (unfold get_extra in Gv; eauto using nth_error_some_lt).
          assert (Lo2 : low x2 v = Some (Nat.min lv iw)).
          { unfold low, x2. rewrite get_set, Nat.eqb_refl; auto. }
          assert (Ix2 : forall z, idx x2 z = idx x z).
          { intros z. unfold idx, x2. rewrite get_set by auto. destruct (Nat.eqb_spec v z) as [->|]; auto. rewrite Gv. auto. }
          destruct L2 as [A1 A2 A3 A4 A5 A6 A7]. constructor; auto.
          destruct A7 as (seg' & lv' & iv' & B1 & B2 & B3 & B4 & B5 & B6 & B7 & B8).
          exists seg', lv', iv'. repeat split; auto; try (apply B7).
          -- destruct H as [<-|H]; [rewrite Ix2; congruence|apply B8; auto].
          -- intros i K H'. destruct H as [<-|H]; [|apply (B8 w0 H); auto].
             rewrite Ix2 in H'. assert (i = iw) by congruence. assert (lv' = Nat.min lv iw) by congruence. lia.
        * apply Cont. destruct L as [A1 A2 A3 A4 A5 A6 A7]. constructor; auto.
          destruct A7 as (seg' & lv' & iv' & B1 & B2 & B3 & B4 & B5 & B6 & B7 & B8).
          exists seg', lv', iv'. repeat split; auto; try (apply B7).
          -- destruct H as [<-|H]; [congruence|apply B8; auto].
          -- intros i K H'. destruct H as [<-|H]; [|apply (B8 w0 H); auto].
             exfalso. apply (i_ons x A1) in K. unfold ons in K. rewrite Gw in K. congruence.
      + assert (Iw : idx x w = None) by (unfold idx; rewrite Gw; auto).
        destruct (Hrun w x Lw Iw (l_inv _ _ _ _ _ L)) as (x1 & R & RP).
        { apply unv_mono. apply (l_idx _ _ _ _ _ L). }
        rewrite R.
        destruct (loop_run v base x0 x x1 done w L Iw Ew RP) as (e & lv & lw & l' & G & Lv & Lo & Ge & El & L2).
        rewrite G. unfold low in Lo. destruct (get_extra x1 w) as [ew1|]; [|discriminate].
        rewrite Ge, Lo. cbn [opt_min]. rewrite <- El. apply Cont. auto.
  Qed.

  Lemma scc_run_ok : forall fuel v x,
    v < nb -> idx x v = None -> Inv x -> unv x <= fuel -> 
    exists x', scc_run g fuel v x = Some x' /\ run_post v x x'.
  Proof.
    induction fuel as [|fuel IH]; intros v x Lv Nv I F.
    - exfalso. assert (In v (filter (fun v => match idx x v with None => true | Some _ => false end) (seq 0 nb))).
      { apply filter_In. split; [apply in_seq; lia|]. rewrite Nv. auto. }
      unfold unv in F. destruct (filter _ _); [auto|simpl in F; lia].
    - cbn [scc_run].
      assert (Ltv : v < length (x_extra x)) by (rewrite (i_len x I); auto).
      destruct (get_extra x v) as [ev0|] eqn:Gv0.
      2:{ unfold get_extra in Gv0. apply nth_error_None in Gv0. lia. }
      set (x0 := mkExpl _ _ _ _).
      destruct (nth_error g v) as [ws|] eqn:Gws.
      2:{ apply nth_error_None in Gws. unfold nb in Lv. lia. }
      assert (Gx0 : forall u, get_extra x0 u = if v =? u then Some (mkExtra true (Some (x_index x)) (Some (x_index x))) else get_extra x u).
      { intros u. unfold get_extra, x0; simpl. destruct (Nat.eqb_spec v u) as [->|N].
        - apply nth_error_set_nth_eq; auto.
        - apply nth_error_set_nth_neq; auto. }
      assert (Ei : forall u, idx x0 u = if v =? u then Some (x_index x) else idx x u).
      { intros u. unfold idx. rewrite Gx0. destruct (v =? u); auto. }
      assert (El : forall u, low x0 u = if v =? u then Some (x_index x) else low x u).
      { intros u. unfold low. rewrite Gx0. destruct (v =? u); auto. }
      assert (Eo : forall u, ons x0 u = if v =? u then true else ons x u).
      { intros u. unfold ons. rewrite Gx0. destruct (v =? u); auto. }
      assert (Nst : ~ In v (x_stk x)). { intros J. eapply (i_vis x I); eauto. }
      assert (Nv' : forall u, idx x u <> None -> v <> u) by congruence.
      assert (I0 : Inv x0).
      { pose proof I as I'. destruct I'. constructor;
        change (x_index x0) with (S (x_index x)); change (x_stk x0) with (v :: x_stk x);
        change (x_scc x0) with (x_scc x); auto.
        - unfold x0; simpl. rewrite set_nth_length; auto.
        - intros u i. rewrite Ei. destruct (v =? u); intros H; [inversion H; lia|]. specialize (i_lt0 _ _ H). lia.
        - intros u w i. rewrite !Ei. destruct (Nat.eqb_spec v u), (Nat.eqb_spec v w); intros H1 H2; subst; auto; try congruence; eauto.
          + inversion H1; subst. specialize (i_lt0 _ _ H2). lia.
          + inversion H2; subst. specialize (i_lt0 _ _ H1). lia.
        - intros u. rewrite Eo. simpl. destruct (Nat.eqb_spec v u) as [->|N]; [tauto|]. rewrite i_ons0. intuition congruence.
        - intros u [->|J]; rewrite Ei; [rewrite Nat.eqb_refl; discriminate|].
          destruct (v =? u); [discriminate|auto].
        - constructor.
          + eapply sorted_ext; [|eassumption]. unfold gt_idx. intros a b Ja Jb H i j.
            rewrite !Ei. rewrite (proj2 (Nat.eqb_neq v a)), (proj2 (Nat.eqb_neq v b)); auto; congruence.
          + apply Forall_forall. intros a Ja i j. rewrite !Ei, Nat.eqb_refl.
            rewrite (proj2 (Nat.eqb_neq v a)) by congruence. intros H1 H2. inversion H1; subst. eauto.
        - intros u. rewrite i_done0, Ei. simpl. destruct (Nat.eqb_spec v u) as [->|N].
          + split; [intros [H _]; congruence|]. intros [_ H]. exfalso; auto.
          + intuition congruence.
        - intros u [<-|J].
          + exists (x_index x), (x_index x), v. rewrite El, Ei, Nat.eqb_refl. simpl. repeat split; auto. constructor.
          + destruct (i_low0 u J) as (l & i & w & F1 & F2 & F3 & F4 & F5 & F6). exists l, i, w.
            rewrite El, !Ei. rewrite !(proj2 (Nat.eqb_neq v _)) by congruence. simpl. auto 10. }
      assert (Sub0 : forall u i, idx x u = Some i -> idx x0 u = Some i).
      { intros u i H. rewrite Ei. rewrite (proj2 (Nat.eqb_neq v u)) by congruence. auto. }
      assert (U0 : unv x0 < unv x).
      { apply unv_lt with (v := v); auto. rewrite Ei, Nat.eqb_refl. discriminate. }
      assert (Ed : forall w, In w ws -> edge v w) by (intros w J; exists ws; auto).
      destruct (children_ok (scc_run g fuel) v (x_stk x) x0 ws x0 []) as (x1 & C & L).
      { intros w y Lw Nw Iy Uy. apply IH; auto. lia. }
      { auto. }
      { constructor; auto.
        - intros; congruence.
        - intros; congruence.
        - exists [], (x_index x), (x_index x). simpl. rewrite El, !Ei, Nat.eqb_refl.
          repeat split; auto; simpl; tauto. }
      rewrite C. rewrite app_nil_r in L.
      destruct L as [I1 Mono Idx New Low Ge (seg & lv & iv & S & N & Lv1 & Iv1 & Lei & Ivx & Sok & Dn)].
      assert (Dn' : forall w, edge v w -> idx x1 w <> None /\
                 (forall i, In w (x_stk x1) -> idx x1 w = Some i -> lv <= i)).
      { intros w (ws' & E & J). rewrite Gws in E. inversion E; subst ws'. apply Dn. apply -> in_rev. auto. }
      assert (Ivx' : iv = x_index x).
      { assert (idx x1 v = Some (x_index x)); [|congruence]. apply Idx. rewrite Ei, Nat.eqb_refl. auto. }
      subst iv.
      assert (N' : forall u, In u (seg ++ [v]) -> idx x u = None).
      { intros u J. apply in_app_iff in J. destruct J as [J|[->|[]]]; auto.
        specialize (N u J). rewrite Ei in N. destruct (v =? u); [discriminate|auto]. }
      assert (New' : forall u, idx x u = None -> idx x1 u <> None ->
         reach v u /\ (forall w, edge u w -> idx x1 w <> None)).
      { intros u H H'. destruct (Nat.eq_dec v u) as [<-|Nu].
        - split; [constructor|]. intros w E. apply Dn'; auto.
        - apply New; auto. rewrite Ei. rewrite (proj2 (Nat.eqb_neq v u)) by auto. auto. }
      assert (Low' : forall u, idx x u <> None -> low x1 u = low x u).
      { intros u H. assert (v <> u) by congruence. rewrite Low; auto.
        - rewrite El. rewrite (proj2 (Nat.eqb_neq v u)) by auto. auto.
        - rewrite Ei. rewrite (proj2 (Nat.eqb_neq v u)) by auto. auto. }
      assert (Ge' : forall u i, idx x u = None -> idx x1 u = Some i -> x_index x <= i).
      { intros u i H H'. destruct (Nat.eq_dec v u) as [<-|Nu].
        - assert (i = x_index x) by congruence. lia.
        - assert (idx x0 u = None) by (rewrite Ei; rewrite (proj2 (Nat.eqb_neq v u)) by auto; auto).
          specialize (Ge u i H0 H'). simpl in Ge. lia. }
      assert (Edges : forall u w i, In u (seg ++ [v]) -> edge u w -> In w (x_stk x1) -> idx x1 w = Some i -> lv <= i).
      { intros u w i J E K H. apply in_app_iff in J. destruct J as [J|[->|[]]].
        - eapply (proj2 Sok); eauto.
        - eapply Dn'; eauto. }
      assert (Succ : forall u w, In u (seg ++ [v]) -> edge u w -> idx x1 w <> None).
      { intros u w J E. assert (V : idx x1 u <> None).
        { apply (i_vis x1 I1). rewrite S. apply in_app_iff in J. apply in_app_iff. simpl in *. tauto. }
        apply (New' u (N' u J) V); auto. }
      destruct (get_extra x1 v) as [ev|] eqn:Gv.
      2:{ unfold idx in Iv1. rewrite Gv in Iv1. discriminate. }
      assert (Ev : e_low ev = Some lv /\ e_index ev = Some (x_index x)).
      { unfold low, idx in Lv1, Iv1. rewrite Gv in Lv1, Iv1. auto. }
      destruct Ev as [-> ->]. cbn [opt_nat_eqb].
      destruct (Nat.eqb_spec lv (x_index x)) as [->|Ne].
      + destruct (pop_inv x1 v seg (x_stk x) I1 S) as (ex & P & I2 & Ei2 & El2).
        * congruence.
        * intros u J. apply New'; [apply N'; apply in_app_iff; auto|].
          apply (i_vis x1 I1). rewrite S. apply in_app_iff. auto.
        * intros u J. destruct (proj1 Sok u J) as (lu & iu & A & B & D & E). exists lu, iu, (x_index x). auto.
        * auto.
        * intros u w i lv J E K H H'. assert (lv = x_index x) by congruence. subst. eauto.
        * rewrite P. eexists; split; [reflexivity|].
          set (x2 := mkExpl _ _ _ _) in *.
          split; [exact I2|]. split; [intros; rewrite Ei2; auto|]. split; [simpl in *; lia|].
          split; [rewrite Ei2; congruence|].
          split. { intros u H. rewrite Ei2. intros H'. destruct (New' u H H') as [A B]. split; auto.
                   intros w E. rewrite Ei2. auto. }
          split; [intros u H; rewrite El2; auto|].
          split; [intros u i H; rewrite Ei2; eauto|].
          exists []. simpl. split; auto. split; [tauto|]. left. split; auto. rewrite El2, Ei2. congruence.
      + exists x1. split; auto.
        split; [exact I1|]. split; [auto|]. split; [simpl in *; lia|]. split; [congruence|].
        split; [auto|]. split; [auto|]. split; [eauto|].
        exists (seg ++ [v]). split; [rewrite <- app_assoc; auto|]. split; auto.
        right. split; [apply in_app_iff; simpl; auto|]. exists lv. split; auto. split; auto.
        intros u J. apply in_app_iff in J. destruct J as [J|[->|[]]].
        * apply (proj1 Sok u J).
        * exists lv, (x_index x). repeat split; auto. lia.
  Qed.

  Lemma explore_ok : forall fuel vs x,
    (forall v, In v vs -> v < nb) -> Inv x -> x_stk x = [] -> unv x <= fuel ->
    exists x', explore_all g fuel vs x = Some x' /\ Inv x' /\ x_stk x' = [] /\
      (forall u i, idx x u = Some i -> idx x' u = Some i) /\
      (forall v, In v vs -> idx x' v <> None).
  Proof.
    induction vs as [|v vs IH]; intros x Lt I S F; simpl.
    - exists x. do 4 (split; [solve [auto]|]). intros v [].
    - destruct (get_extra x v) as [e|] eqn:G.
      2:{ unfold get_extra in G. apply nth_error_None in G. rewrite (i_len x I) in G.
          specialize (Lt v (or_introl eq_refl)). lia. }
      destruct (e_index e) as [i|] eqn:E.
      + destruct (IH x) as (x' & A & B & C & D & H); auto. { intros; apply Lt; simpl; auto. }
        exists x'. do 4 (split; [solve [auto]|]). intros w [<-|J]; auto.
        rewrite (D v i); [discriminate|]. unfold idx. rewrite G. auto.
      + destruct (scc_run_ok fuel v x) as (x1 & R & I1 & P1 & Pm & P2 & P3 & P4 & P5 & new & S1 & N1 & Alt); auto.
        { apply Lt. simpl; auto. } { unfold idx. rewrite G. auto. }
        rewrite R. rewrite S, app_nil_r in S1.
        assert (S1' : x_stk x1 = []).
        { destruct Alt as [[-> _]|(J & lv & Lv & A & B)]; auto. exfalso.
          destruct (A v J) as (lu & iu & E1 & E2 & L1 & L2).
          (* the vertex of least index on the stack has a smaller low link: impossible *)
          assert (M : forall n u i, i <= n -> In u new -> idx x1 u = Some i -> False).
          { induction n as [|n IHn]; intros u i Le Ju Iu; destruct (A u Ju) as (lu' & iu' & F1 & F2 & F3 & F4);
            assert (iu' = i) by congruence; subst iu'; [lia|].
            destruct (i_low x1 I1 u) as (l & i' & w & H1 & H2 & H3 & H4 & H5 & H6); [rewrite S1; auto|].
            rewrite S1 in H4. apply (IHn w l); auto. assert (l = lu') by congruence. lia. }
          apply (M iu v iu); auto. }
        destruct (IH x1) as (x' & A & B & C & D & H); auto. { intros; apply Lt; simpl; auto. }
        { pose proof (unv_mono x x1 P1). lia. }
        exists x'. do 4 (split; [solve [auto]|]). intros w [<-|J]; auto.
        destruct (idx x1 v) eqn:E1; [|congruence]. rewrite (D _ _ E1). discriminate.
  Qed.

  Lemma nth_repeat_inv : forall {A} (a b : A) n k, nth_error (repeat a n) k = Some b -> b = a.
  Proof. induction n; intros [|k] H; simpl in H; try discriminate; [congruence|eauto]. Qed.

  Lemma init_inv : Inv (explorer_init nb) /\ forall v, idx (explorer_init nb) v = None.
  Proof.
    assert (E : forall v, idx (explorer_init nb) v = None).
    { intros v. unfold idx, get_extra, explorer_init. simpl. destruct (nth_error _ v) eqn:E; auto.
      apply nth_repeat_inv in E. subst. auto. }
    split; auto. constructor; simpl; auto; try tauto.
    - apply repeat_length.
    - intros v i. rewrite E. discriminate.
    - intros v w i. rewrite E. discriminate.
    - intros v. unfold ons, get_extra, explorer_init. simpl. destruct (nth_error _ v) eqn:H; [|intuition discriminate].
      apply nth_repeat_inv in H. subst. simpl. intuition discriminate.
    - constructor.
    - intros v. rewrite E. tauto.
    - constructor.
    - intros pre c post H. destruct pre; discriminate.
  Qed.

  Theorem sccs_ok : exists cs, sccs g = Some cs /\
    Permutation (concat cs) (seq 0 nb) /\ comps_ok cs.
  Proof.
    destruct init_inv as [I0 E0].
    destruct (explore_ok (S nb) (seq 0 nb) (explorer_init nb)) as (x & A & B & C & D & F); auto.
    { intros v J. apply in_seq in J. lia. }
    { unfold unv.
      pose proof (filter_le (seq 0 nb) (fun _ => true) (fun v => match idx (explorer_init nb) v with None => true | Some _ => false end) (fun _ _ => eq_refl)) as H.
      assert (Ht : forall (l : list nat), filter (fun _ => true) l = l) by (induction l; simpl; congruence).
      rewrite Ht, seq_length in H. lia. }
    unfold sccs. fold nb. rewrite A. exists (x_scc x). split; auto. split; [|apply (i_comps x B)].
    apply NoDup_Permutation.
    - apply (i_nodup x B).
    - apply seq_NoDup.
    - intros v. rewrite (i_done x B), C. simpl. rewrite in_seq. split.
      + intros [H _]. destruct (idx x v) eqn:E; [|congruence]. apply idx_some_lt in E. rewrite (i_len x B) in E. lia.
      + intros H. split; [|tauto]. apply F. apply in_seq. lia.
  Qed.
End Tarjan.
