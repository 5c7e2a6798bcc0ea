(** Local definitions can be replaced by what they define. *)
From Coq Require Import String List ZArith Bool Arith Lia.
From Verif Require Import Model.Base Model.Scalar Model.Value Model.Register Model.Ast Model.Errors Model.Interp Model.Options Model.Surface Model.Translate
  Model.Pipeline Model.Extern
  Spec.StepSpec Spec.SurfaceSem Spec.ProgramSem Spec.SettledSem Spec.SafetySpec Spec.ExternSem Spec.SourceCausal Spec.ConstSpec Spec.Replace Spec.Inline
  Proofs.AstInd Proofs.OutBasics Proofs.InterpBasics Proofs.ProgramProofs Proofs.PipelineProofs Proofs.Settled Proofs.Exact Proofs.Replace Proofs.Asserts.
Import ListNotations.

Lemma inline_away : forall z d e, ~ In z (names e) -> inline z d e = e.
Proof.
  intros z d.
  assert (L : forall l, Forall (fun e => ~ In z (names e) -> inline z d e = e) l -> ~ In z (flat_map names l) -> map (inline z d) l = l).
  { induction 1; intros A; cbn in *; auto. rewrite in_app_iff in A. f_equal; tauto. }
  assert (P : forall O (l : list (O * sexpr)), Forall (fun p => ~ In z (names (snd p)) -> inline z d (snd p) = snd p) l ->
    ~ In z (flat_map (fun p => names (snd p)) l) -> map (fun p => (fst p, inline z d (snd p))) l = l).
  { induction 1 as [|[op e] l H _ IH]; intros A; cbn in *; auto. rewrite in_app_iff in A. f_equal; [f_equal|]; tauto. }
  intros e. induction e using sexpr_ind'; cbn; rewrite ?in_app_iff; intros A; try (f_equal; auto; tauto).
  destruct (String.eqb_spec x z); auto. subst. tauto.
Qed.

Section Sem.
  Variable mode : ovf.
  Variable glob : ident -> option scalar.
  Variables L L' : list ident.
  Variable rho : nat -> ident -> option nillable.
  Variable F : ident -> list val -> val -> Prop.
  Variable N : ident -> val -> Prop.
  Variables (z : ident) (d : sexpr) (T0 : Z).
  Hypothesis Lz : In z L.
  Hypothesis LL : forall x, x <> z -> (In x L <-> In x L').
  Hypothesis Hd : forall t n, (0 <= t <= T0)%Z -> rho (Z.to_nat t) z = Some n -> sem mode glob L' rho F N d t (VS n).

  Definition cond (e : sexpr) (t : Z) : Prop := ((0 <= t <= T0)%Z /\ undelayed z e) \/ ~ In z (names e).
  Definition conds (l : list sexpr) (t : Z) : Prop := forall e, In e l -> cond e t.
  Definition condp {O} (l : list (O * sexpr)) (t : Z) : Prop := forall p, In p l -> cond (snd p) t.

  Lemma undelayed_all : forall l, (fix all l := match l with [] => True | e :: l => undelayed z e /\ all l end) l -> forall e, In e l -> undelayed z e.
  Proof. induction l; cbn; intros A e []; subst; destruct A; auto. Qed.
  Lemma undelayed_pairs : forall O (l : list (O * sexpr)),
    (fix all (l : list (O * sexpr)) := match l with [] => True | (_, e) :: l => undelayed z e /\ all l end) l -> forall p, In p l -> undelayed z (snd p).
  Proof. induction l as [|[op e] l IH]; cbn; intros A p []; subst; destruct A; auto. Qed.
  Lemma away_all : forall l, ~ In z (flat_map names l) -> forall e, In e l -> ~ In z (names e).
  Proof. intros l A e J K. apply A, in_flat_map. eauto. Qed.
  Lemma away_pairs : forall O (l : list (O * sexpr)), ~ In z (flat_map (fun p => names (snd p)) l) -> forall p, In p l -> ~ In z (names (snd p)).
  Proof. intros O l A e J K. apply A, in_flat_map. eauto. Qed.

  (** The condition goes down. *)
  Lemma cond_paren : forall l b t, cond (XParen l b) t -> conds l t.
  Proof. intros l b t [[A B]|B] e J; [left; split; auto; eapply undelayed_all; eauto|right; eapply away_all; eauto]. Qed.
  Lemma cond_call : forall f l b t, cond (XCall f l b) t -> conds l t.
  Proof. intros f l b t H. apply (cond_paren l b). exact H. Qed.
  Lemma cond_args : forall f l b t k, cond (XCall f l b) t -> (0 <= k <= t)%Z -> cond (XParen l b) k.
  Proof. intros f l b t k [[A B]|B] K; [left; split; [lia|exact B]|right; exact B]. Qed.
  Lemma cond_pre : forall e t, cond (XPre e) t -> cond e (t - 1).
  Proof. intros e t [[A B]|B]; right; exact B. Qed.
  Lemma cond_three : forall a b c t, cond (XIf a b c) t -> cond a t /\ cond b t /\ cond c t.
  Proof. intros a b c t [[A (B1 & B2 & B3)]|B]; [repeat split; left; auto|]. cbn in B. rewrite !in_app_iff in B. repeat split; right; tauto. Qed.
  Lemma cond_bin : forall e l t, cond (XBin e l) t -> cond e t /\ condp l t.
  Proof.
    intros e l t [[A (B1 & B2)]|B]; [split; [left; auto|intros p J; left; split; auto; eapply undelayed_pairs; eauto]|].
    cbn in B. rewrite in_app_iff in B. split; [right; tauto|]. intros p J. right. eapply away_pairs; [|exact J]. tauto.
  Qed.
  Lemma cond_cmp : forall e l t, cond (XCmp e l) t -> cond e t /\ condp l t.
  Proof.
    intros e l t [[A (B1 & B2)]|B]; [split; [left; auto|intros p J; left; split; auto; eapply undelayed_pairs; eauto]|].
    cbn in B. rewrite in_app_iff in B. split; [right; tauto|]. intros p J. right. eapply away_pairs; [|exact J]. tauto.
  Qed.
  Lemma cond_clock : forall e l t, cond (XClock e l) t -> cond e t /\ condp l t.
  Proof.
    intros e l t [[A (B1 & B2)]|B]; [split; [left; auto|intros p J; left; split; auto; eapply undelayed_pairs; eauto]|].
    cbn in B. rewrite in_app_iff in B. split; [right; tauto|]. intros p J. right. eapply away_pairs; [|exact J]. tauto.
  Qed.
  Lemma cond_then : forall e l t k e', cond (XThen e l) t -> nth_error (e :: l) k = Some e' -> cond e' t.
  Proof.
    intros e l t k e' C J. apply nth_error_In in J. destruct C as [[A (B1 & B2)]|B].
    - left. split; auto. destruct J as [<-|J]; auto. eapply undelayed_all; eauto.
    - right. cbn in B. rewrite in_app_iff in B. destruct J as [<-|J]; [tauto|]. eapply away_all; [|exact J]. tauto.
  Qed.
  Lemma cond_fby : forall e l t k e', cond (XFby e l) t -> nth_error (e :: l) k = Some e' -> cond e' (t - Z.of_nat k).
  Proof.
    intros e l t k e' C J. destruct C as [[A (B1 & B2)]|B].
    - destruct k as [|k]; cbn [nth_error] in J.
      + inversion J; subst. left. split; auto. lia.
      + right. apply nth_error_In in J. eapply away_all; eauto.
    - right. cbn in B. rewrite in_app_iff in B. apply nth_error_In in J. destruct J as [<-|J]; [tauto|]. eapply away_all; [|exact J]. tauto.
  Qed.

  Notation inl := (inline z d).
  Notation inlp := (map (fun p => (fst p, inline z d (snd p)))).
  Notation sm' := (sem mode glob L' rho F N).

  Lemma nth_inline : forall e l k e', nth_error (e :: l) k = Some e' -> nth_error (inl e :: map inl l) k = Some (inl e').
  Proof. intros e l k e' H. exact (map_nth_error inl k (e :: l) H). Qed.

  Lemma sem_inline : forall e t v, sem mode glob L rho F N e t v -> cond e t -> sm' (inl e) t v.
  Proof.
    apply (sem_mut mode glob L rho F N
      (fun e t v => cond e t -> sm' (inl e) t v)
      (fun l t vs => conds l t -> sems mode glob L' rho F N (map inl l) t vs)
      (fun w l t v => condp l t -> bins mode glob L' rho F N w (inlp l) t v)
      (fun w l t v => condp l t -> clocks mode glob L' rho F N w (inlp l) t v)); intros; cbn [inline map].
    - constructor.
    - constructor.
    - constructor.
    - destruct (String.eqb_spec x z) as [->|Ne].
      + match goal with H : cond _ _ |- _ => destruct H as [[A _]|A]; [|cbn in A; tauto] end. apply Hd; auto.
      + apply sem_var; auto. apply LL; auto.
    - destruct (String.eqb_spec x z) as [->|Ne].
      + match goal with H : cond _ _ |- _ => destruct H as [[A _]|A]; [lia|cbn in A; tauto] end.
      + apply sem_past; auto. apply LL; auto.
    - destruct (String.eqb_spec x z) as [->|Ne]; [tauto|]. apply sem_global; auto. rewrite <- LL; auto.
    - apply sem_paren. eauto using cond_paren.
    - apply sem_call_past; auto.
    - eapply sem_call; eauto. intros k w J. change (sm' (inl (XParen l b)) (Z.of_nat k) w). apply H2; auto. eapply cond_args; eauto.
      assert (k < length args) by (apply nth_error_Some; congruence). lia.
    - eapply sem_neg; eauto.
    - eapply sem_not; eauto.
    - apply sem_pre. auto using cond_pre.
    - match goal with H : cond _ _ |- _ => apply cond_three in H; destruct H as (C1 & C2 & C3) end. eapply sem_if; eauto.
    - match goal with H : cond _ _ |- _ => apply (cond_three c a b) in H; destruct H as (C1 & C2 & C3) end. eapply sem_merge; eauto.
    - match goal with H : cond _ _ |- _ => apply cond_bin in H; destruct H end. eapply sem_bin; eauto.
    - match goal with H : cond _ _ |- _ => apply cond_clock in H; destruct H end. eapply sem_clock; eauto.
    - match goal with H : cond _ _ |- _ => apply cond_cmp in H; destruct H end. eapply sem_cmp1; eauto.
    - match goal with H : cond _ _ |- _ => apply cond_cmp in H; destruct H as [C1 C2] end. eapply sem_cmp2; eauto. apply H2. apply (C2 (op, b)). left. auto.
    - eapply sem_fby with (e' := inl e'); rewrite ?map_length; [apply nth_inline; auto|]. eauto using cond_fby.
    - eapply sem_then with (e' := inl e'); rewrite ?map_length; [apply nth_inline; auto|]. eauto using cond_then.
    - constructor.
    - constructor; [apply H0; match goal with H : conds _ _ |- _ => apply H; left; auto end|]. apply H2. intros e0 J. match goal with H : conds _ _ |- _ => apply H; right; auto end.
    - constructor.
    - econstructor; eauto; [apply H0; match goal with H : condp _ _ |- _ => apply (H (op, e)); left; auto end|]. apply H3. intros p J. match goal with H : condp _ _ |- _ => apply H; right; auto end.
    - constructor.
    - econstructor; eauto; [apply H0; match goal with H : condp _ _ |- _ => apply (H (pos, e)); left; auto end|]. apply H3. intros p J. match goal with H : condp _ _ |- _ => apply H; right; auto end.
  Qed.

  Hypothesis Sd : forall t, (0 <= t <= T0)%Z -> settled mode glob L' rho F N d t.

  Lemma settled_inline : forall e t, cond e t -> settled mode glob L rho F N e t -> settled mode glob L' rho F N (inl e) t.
  Proof.
    set (Q := fun e => forall t, cond e t -> settled mode glob L rho F N e t -> settled mode glob L' rho F N (inl e) t).
    assert (A : forall l, Forall Q l -> forall t, conds l t -> all_settled mode glob L rho F N l t -> all_settled mode glob L' rho F N (map inl l) t).
    { induction 1; intros t C B; cbn in *; auto. destruct B. split; [apply H; auto; apply C; left; auto|]. apply IHForall; auto. intros e J. apply C. right. auto. }
    assert (P : forall O (l : list (O * sexpr)), Forall (fun p => Q (snd p)) l -> forall t, condp l t -> pairs_settled mode glob L rho F N l t ->
      pairs_settled mode glob L' rho F N (inlp l) t).
    { induction 1 as [|[op e] l H _ IH]; intros t C B; cbn in *; auto. destruct B. split; [apply H; auto; apply (C (op, e)); left; auto|].
      apply IH; auto. intros p J. apply C. right. auto. }
    assert (K : forall e l, Q e -> Forall Q l -> forall k e', nth_error (e :: l) k = Some e' -> Q e').
    { intros e l He Hl k e' Hk. apply nth_error_In in Hk. destruct Hk as [<-|Hk]; auto. rewrite Forall_forall in Hl. auto. }
    assert (I : forall e l k x, nth_error (inl e :: map inl l) k = Some x -> exists e', nth_error (e :: l) k = Some e' /\ x = inl e').
    { intros e l k x H. change (inl e :: map inl l) with (map inl (e :: l)) in H. rewrite nth_error_map in H. destruct (nth_error (e :: l) k); inversion H. eauto. }
    intros e. change (Q e). induction e using sexpr_ind'; intros t C; cbn [inline].
    - exact (fun _ => Logic.I).
    - intros _. destruct (String.eqb_spec x z) as [->|Ne]; [|exact Logic.I]. destruct C as [[C _]|C]; [auto|cbn in C; tauto].
    - rewrite !st_paren. apply A; auto. eapply cond_paren; eauto.
    - rewrite !st_call. intros B T. apply A; auto. eapply cond_call; eauto.
    - apply IHe. exact C.
    - apply IHe. exact C.
    - apply (IHe (t - 1)%Z). apply cond_pre. auto.
    - apply cond_three in C. destruct C as (C1 & C2 & C3). cbn. intros (B1 & B2 & B3). auto.
    - apply (cond_three e1 e2 e3) in C. destruct C as (C1 & C2 & C3). cbn. intros (B1 & B2 & B3). auto.
    - rewrite !st_bin. apply cond_bin in C. destruct C. intros [B1 B2]. split; auto.
    - rewrite !st_cmp. apply cond_cmp in C. destruct C. intros [B1 B2]. split; auto.
    - rewrite !st_clock. apply cond_clock in C. destruct C. intros [B1 B2]. split; auto.
    - rewrite !st_fby. rewrite map_length. intros B k x J G. destruct (I _ _ _ _ J) as (e' & J' & ->). destruct (B k e' J' G) as (B1 & v & B2).
      assert (C' := cond_fby _ _ _ _ _ C J'). split; [eapply K; eauto|]. exists v. apply sem_inline; auto.
    - rewrite !st_then. rewrite map_length. intros B k x J G. destruct (I _ _ _ _ J) as (e' & J' & ->). destruct (B k e' J' G) as (B1 & v & B2).
      assert (C' := cond_then _ _ _ _ _ C J'). split; [eapply K; eauto|]. exists v. apply sem_inline; auto.
  Qed.
End Sem.

Lemma inlined_kept : forall mode glob a b, inlined a b -> solutions_kept mode glob a b.
Proof.
  intros mode glob a0 b0 [f i o v v' z d before after Iz Nd Ev Un] F N ins outs (Len & rho & M). split; auto. exists rho. clear a0 b0.
  set (a := mkSNode f i o v (before ++ XDef (TVar z) d :: after)) in *.
  set (b := mkSNode f i o v' (map (inline_stmt z (XParen [d] false)) (before ++ after))).
  assert (Lz : In z (node_vars a)) by (unfold node_vars; cbn; rewrite !in_app_iff; auto).
  assert (LL : forall x, x <> z -> (In x (node_vars a) <-> In x (node_vars b))).
  { intros x Ne. unfold node_vars, a, b. cbn [s_inputs s_outputs s_locals]. rewrite !in_app_iff, Ev, filter_In. destruct (String.eqb_spec x z); [tauto|]. cbn. tauto. }
  assert (Hz : forall T vv oo, nth_error ins T = Some vv -> nth_error outs T = Some oo ->
    (exists n, rho T z = Some n /\ sem mode glob (node_vars b) rho F N d (Z.of_nat T) (VS n)) /\ settled mode glob (node_vars b) rho F N d (Z.of_nat T)).
  { intros T vv oo Hv Ho. destruct (M T vv oo Hv Ho) as (_ & B & _).
    destruct (B (XDef (TVar z) d)) as [(w & S & W) St]; [cbn; rewrite in_app_iff; cbn; auto|]. inversion W; subst.
    assert (Q : forall t n, (0 <= t <= -1)%Z -> rho (Z.to_nat t) z = Some n -> sem mode glob (node_vars b) rho F N d t (VS n)) by (intros; lia).
    assert (Q' : forall t, (0 <= t <= -1)%Z -> settled mode glob (node_vars b) rho F N d t) by (intros; lia).
    split.
    - exists n. split; auto. rewrite <- (inline_away z d d Nd) at 1. eapply sem_inline with (T0 := (-1)%Z); eauto. right. auto.
    - rewrite <- (inline_away z d d Nd) at 1. eapply settled_inline with (T0 := (-1)%Z); eauto. right. auto. }
  intros T vv oo Hv Ho. destruct (M T vv oo Hv Ho) as (A & B & C). split; auto. split; auto.
  assert (Before : forall t, (0 <= t <= Z.of_nat T)%Z -> exists v1 o1, nth_error ins (Z.to_nat t) = Some v1 /\ nth_error outs (Z.to_nat t) = Some o1).
  { intros t Ht. assert (T < length ins) by (apply nth_error_Some; congruence).
    destruct (nth_error ins (Z.to_nat t)) as [v1|] eqn:E1; [|apply nth_error_None in E1; lia].
    destruct (nth_error outs (Z.to_nat t)) as [o1|] eqn:E2; [|apply nth_error_None in E2; lia]. eauto. }
  assert (Hd : forall t n, (0 <= t <= Z.of_nat T)%Z -> rho (Z.to_nat t) z = Some n -> sem mode glob (node_vars b) rho F N (XParen [d] false) t (VS n)).
  { intros t n Ht E. destruct (Before t Ht) as (v1 & o1 & X1 & X2). destruct (Hz _ _ _ X1 X2) as [(n' & E' & S) _]. rewrite Z2Nat.id in S by lia.
    assert (n' = n) by congruence. subst n'. eapply (sem_paren _ _ _ _ _ _ [d] false t [VS n]). constructor; [exact S|constructor]. }
  assert (Sd : forall t, (0 <= t <= Z.of_nat T)%Z -> settled mode glob (node_vars b) rho F N (XParen [d] false) t).
  { intros t Ht. destruct (Before t Ht) as (v1 & o1 & X1 & X2). destruct (Hz _ _ _ X1 X2) as [_ S]. rewrite Z2Nat.id in S by lia. cbn. auto. }
  intros s J. cbn [b s_defs] in J. apply in_map_iff in J. destruct J as (s0 & <- & J).
  assert (J' : In s0 (s_defs a)) by (cbn; apply in_app_iff; apply in_app_iff in J; cbn; tauto).
  destruct (B s0 J') as [H1 H2]. specialize (Un s0 J).
  assert (Cd : cond z (Z.of_nat T) (right_side s0) (Z.of_nat T)) by (left; split; [lia|auto]).
  destruct s0 as [t e|e]; cbn [inline_stmt sstmt_holds stmt_settled right_side] in *.
  - destruct H1 as (w & S & W). split; [exists w; split; auto; eapply sem_inline; eauto|eapply settled_inline; eauto].
  - split; [eapply sem_inline; eauto|eapply settled_inline; eauto].
Qed.

Theorem inlined_runs : forall mode glob p q l m,
  Forall2 (fun a b => a = b \/ exists sn sn', snd a = XNode sn /\ b = (fst a, XNode sn') /\ inlined sn sn') p q ->
  result (pipeline p) = Some l -> result (pipeline q) = Some m -> closed p -> default_mode p ->
  (forall x t, constant p x t -> glob x <> None) ->
  forall f ins outs, outputs mode glob (nodes_of l) f ins = Ok outs -> outputs mode glob (nodes_of m) f ins = Ok outs.
Proof.
  intros mode glob p q l m R Hp Hq C D K.
  assert (Back : forall b, In b q -> exists a, In a p /\ (a = b \/ exists sn sn', snd a = XNode sn /\ b = (fst a, XNode sn') /\ inlined sn sn'))
    by (intros b J; destruct (forall2_in_right _ _ _ R _ J) as (a & I & X); eauto).
  apply (replaced mode glob p q l m Hp Hq C); auto.
  - intros a x i o J. destruct (Back _ J) as (c & I & [->|(sn & sn' & E1 & E2 & _)]); [eapply C; eauto|congruence].
  - intros a sn J. destruct (Back _ J) as ([c1 c2] & I & [E|(sn0 & sn' & E1 & E2 & _)]); [inversion E; subst; eapply D; eauto|].
    cbn in E1, E2. inversion E2; subst. eapply D; eauto.
  - intros x t [X|(a & [(e & J)|J])]; [eauto| |]; destruct (Back _ J) as (c & I & [->|(sn & sn' & E1 & E2 & _)]); try discriminate E2; apply (K x t); exists a; eauto.
  - intros a J. apply in_flat_map in J. destruct J as ([c1 c2] & J & X). destruct (forall2_in_left _ _ _ R _ J) as (c' & J' & S).
    destruct c2; cbn in X; try tauto. destruct X as [<-|[]]. destruct S as [<-|(sn & sn' & E1 & -> & In1)].
    + exists nd. split; [apply in_flat_map; eexists; split; [exact J'|cbn; auto]|]. split; auto. split; auto. left. intros F N ins outs X. exact X.
    + cbn in E1. inversion E1; subst. exists sn'. split; [apply in_flat_map; eexists; split; [exact J'|cbn; auto]|].
      pose proof (inlined_kept mode glob _ _ In1) as Kp. destruct In1. auto.
Qed.
