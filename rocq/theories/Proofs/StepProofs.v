(** Proofs of the claims about step functions. *)
From Coq Require Import String List ZArith Bool Arith Lia.
From Verif Require Import Model.Base Model.Scalar Model.Value Model.History Model.Register Model.Ast Model.Interp
  Spec.RuntimeSpec Spec.StepSpec Proofs.AstInd Proofs.RuntimeProofs Proofs.RuntimeProofs2 Proofs.InterpBasics.
Import ListNotations.

Lemma same_shape_refl : forall v, same_shape v v.
Proof.
  induction v using val_ind'; constructor. induction H; auto.
Qed.

Lemma absent_step : forall mode glob p f nd callees i v,
  find_node p f = Some (nd, callees) -> first_is_nil v = true ->
  exists o, step mode glob p f i v = Ok (o, i) /\ ~ has_defined o /\
            same_shape o (vars_nil (n_outputs nd)).
Proof.
  intros. exists (vars_nil (n_outputs nd)). split; [eapply step_absent; eauto|]. split.
  - rewrite <- vars_nil_not_defined. apply all_nil_spec.
  - apply same_shape_refl.
Qed.

Lemma stutter : forall mode glob p f nd callees ins i,
  find_node p f = Some (nd, callees) ->
  run mode glob p f i ins =
  ('(os, i') <- run mode glob p f i (filter (fun v => negb (first_is_nil v)) ins);;
   Ok (weave (vars_nil (n_outputs nd)) ins os, i')).
Proof. intros. eapply run_stutter; eauto. Qed.

Lemma run_length : forall mode glob p f ins i os i',
  run mode glob p f i ins = Ok (os, i') -> length os = length ins.
Proof.
  induction ins as [|v ins IH]; intros i os i' H; cbn [run] in H; inv_ok; auto.
  simpl. f_equal. eauto.
Qed.

Lemma present_weave : forall nilv ins os,
  length os = length (filter (fun v => negb (first_is_nil v)) ins) ->
  present_outputs ins (weave nilv ins os) = os.
Proof.
  induction ins as [|v ins IH]; intros os L; simpl in *.
  - destruct os; [auto|discriminate].
  - destruct (first_is_nil v) eqn:N; simpl in L.
    + auto.
    + destruct os as [|o os]; [discriminate|]. simpl. f_equal. apply IH. simpl in L. lia.
Qed.

Lemma same_present : forall mode glob p f nd callees ins1 ins2 i os1 os2 i1 i2,
  find_node p f = Some (nd, callees) ->
  filter (fun v => negb (first_is_nil v)) ins1 = filter (fun v => negb (first_is_nil v)) ins2 ->
  run mode glob p f i ins1 = Ok (os1, i1) -> run mode glob p f i ins2 = Ok (os2, i2) ->
  i1 = i2 /\ present_outputs ins1 os1 = present_outputs ins2 os2.
Proof.
  intros mode glob p f nd callees ins1 ins2 i os1 os2 i1 i2 F E R1 R2.
  rewrite (stutter _ _ _ _ _ _ _ _ F) in R1. rewrite (stutter _ _ _ _ _ _ _ _ F) in R2. rewrite <- E in R2.
  destruct (run _ _ _ _ _ (filter _ ins1)) as [[os i']|] eqn:R; [|discriminate].
  cbn [bind] in R1, R2. inversion R1; inversion R2; subst. split; auto.
  apply run_length in R. rewrite !present_weave; auto. congruence.
Qed.

(** ** Commutation *)
Section Commute.
  Variable mode : ovf.
  Variable glob : ident -> option scalar.
  Variable clk : nat.
  Variable hists : list (ident * hist).
  Variable call : nat -> inst -> val -> res (val * inst).
  Variable nilout : nat -> res val.
  Variable regs : list register.
  Variable st : store.
  Notation eval' := (eval mode glob clk hists call nilout regs st).
  Notation evals' := (evals mode glob clk hists call nilout regs st).

  (** Agreement on a set of call sites and flips. *)
  Definition agree (cs fs : list nat) (s t : estate) : Prop :=
    (forall id, In id cs -> nth_error (es_subs s) id = nth_error (es_subs t) id) /\
    (forall id, In id fs -> nth_error (es_flips s) id = nth_error (es_flips t) id).

  (** [t'] is [t] with the components in [cs]/[fs] taken from [s']. *)
  Definition patched (cs fs : list nat) (t s' t' : estate) : Prop :=
    agree cs fs s' t' /\ framed cs fs t t'.

  Lemma estate_ext : forall s t,
    length (es_subs s) = length (es_subs t) -> length (es_flips s) = length (es_flips t) ->
    (forall id, nth_error (es_subs s) id = nth_error (es_subs t) id) ->
    (forall id, nth_error (es_flips s) id = nth_error (es_flips t) id) -> s = t.
  Proof.
    intros [f s] [f' s'] L1 L2 A B; simpl in *.
    assert (G : forall {A} (l l' : list A), (forall i, nth_error l i = nth_error l' i) -> l = l').
    { clear. induction l as [|a l IH]; intros [|b l'] H; auto.
      - specialize (H 0); discriminate.
      - specialize (H 0); discriminate.
      - f_equal. + specialize (H 0); simpl in H; congruence.
        + apply IH. intros i. apply (H (S i)). }
    f_equal; auto.
  Qed.

  Lemma agree_weaken : forall cs fs cs' fs' s t,
    agree cs fs s t -> incl cs' cs -> incl fs' fs -> agree cs' fs' s t.
  Proof. intros cs fs cs' fs' s t (A & B) I J. split; auto. Qed.

  (** Evaluation only depends on the call sites and flips it mentions. *)
  Definition local (e : expr) : Prop := forall cs fs s v s' t,
    incl (calls_of e) cs -> incl (flips_of e) fs ->
    eval' e s = Ok (v, s') -> agree cs fs s t ->
    exists t', eval' e t = Ok (v, t') /\ agree cs fs s' t'.

  Lemma agree_set_sub : forall cs fs s t id sub, agree cs fs s t ->
    id < length (es_subs s) -> id < length (es_subs t) ->
    agree cs fs (mkEs (es_flips s) (set_nth id sub (es_subs s)))
                (mkEs (es_flips t) (set_nth id sub (es_subs t))).
  Proof.
    intros cs fs s t id sub (A & B) L1 L2. split; simpl; auto.
    intros j J. destruct (Nat.eq_dec id j) as [->|N].
    - rewrite !nth_error_set_nth_eq; auto.
    - rewrite !nth_error_set_nth_neq; auto.
  Qed.

  Lemma agree_set_flip : forall cs fs s t id b, agree cs fs s t ->
    id < length (es_flips s) -> id < length (es_flips t) ->
    agree cs fs (mkEs (set_nth id b (es_flips s)) (es_subs s))
                (mkEs (set_nth id b (es_flips t)) (es_subs t)).
  Proof.
    intros cs fs s t id b (A & B) L1 L2. split; simpl; auto.
    intros j J. destruct (Nat.eq_dec id j) as [->|N].
    - rewrite !nth_error_set_nth_eq; auto.
    - rewrite !nth_error_set_nth_neq; auto.
  Qed.

  Ltac incls :=
    let x := fresh in let Hx := fresh in
    intros x Hx; repeat match goal with H : incl _ _ |- _ => apply H end;
    cbn [calls_of flips_of flat_map In]; rewrite ?in_app_iff; tauto.

  Lemma eval_local : forall e, local e.
  Proof.
    induction e using expr_ind'; intros cs fs s v s' t Ic If E A.
    - simpl in E. inv_ok. exists t. auto.
    - destruct d; simpl in E; inv_ok; exists t; simpl.
      + rewrite E0. auto.
      + rewrite E0. cbn [of_option bind]. rewrite E1. auto.
    - simpl in E. inv_ok. exists t. simpl. rewrite E0. auto.
    - rewrite eval_tuple in E. inv_ok.
      assert (exists t', evals' l t = Ok (l0, t') /\ agree cs fs s' t') as (t' & Et & At).
      { revert s l0 s' t E0 A Ic If. induction H as [|e l He H IH]; intros s vs s' t E A Ic If; simpl in E; inv_ok.
        - exists t. auto.
        - destruct (He cs fs _ _ _ t ltac:(incls) ltac:(incls) E0 A) as (t1 & E2 & A1).
          destruct (IH _ _ _ t1 E1 A1 ltac:(incls) ltac:(incls)) as (t2 & E3 & A2).
          exists t2. simpl. rewrite E2. cbn [bind]. rewrite E3. auto. }
      exists t'. rewrite eval_tuple, Et. auto.
    - eapply IHe; eauto.
    - eapply IHe; eauto.
    - simpl in E. inv_ok.
      destruct (IHe1 cs fs _ _ _ t ltac:(incls) ltac:(incls) E0 A) as (t1 & E2' & A1).
      destruct (IHe2 cs fs _ _ _ t1 ltac:(incls) ltac:(incls) E1 A1) as (t2 & E3' & A2).
      exists t2. simpl. rewrite E2'. cbn [bind]. rewrite E3'. cbn [bind]. rewrite E2. auto.
    - simpl in E. inv_ok.
      destruct (IHe cs fs _ _ _ t ltac:(incls) ltac:(incls) E0 A) as (t1 & E2' & A1).
      exists t1. simpl. rewrite E2'. cbn [bind]. rewrite E1. auto.
    - simpl in E. inv_ok.
      destruct (IHe1 cs fs _ _ _ t ltac:(incls) ltac:(incls) E0 A) as (t1 & E2' & A1).
      destruct (IHe2 cs fs _ _ _ t1 ltac:(incls) ltac:(incls) E1 A1) as (t2 & E3' & A2).
      exists t2. simpl. rewrite E2'. cbn [bind]. rewrite E3'. cbn [bind]. rewrite E2. auto.
    - simpl in E. inv_ok.
      destruct (IHe2 cs fs _ _ _ t ltac:(incls) ltac:(incls) E0 A) as (t1 & E2' & A1).
      destruct (IHe1 cs fs _ _ _ t1 ltac:(incls) ltac:(incls) E1 A1) as (t2 & E3' & A2).
      exists t2. simpl. rewrite E2'. cbn [bind]. rewrite E3'. cbn [bind]. rewrite E2. auto.
    - simpl in E. inv_ok.
      destruct (IHe2 cs fs _ _ _ t ltac:(incls) ltac:(incls) E0 A) as (t1 & E2' & A1).
      destruct (d <? clk) eqn:D; inv_ok.
      + exists t1. simpl. rewrite E2'. cbn [bind]. rewrite D. auto.
      + destruct (IHe1 cs fs _ _ _ t1 ltac:(incls) ltac:(incls) E A1) as (t2 & E3' & A2).
        exists t2. simpl. rewrite E2'. cbn [bind]. rewrite D. auto.
    - simpl in E. inv_ok. exists t. simpl. rewrite E0. auto.
    - simpl in E. inv_ok.
      destruct (IHe1 cs fs _ _ _ t ltac:(incls) ltac:(incls) E0 A) as (t1 & E2' & A1).
      destruct (IHe2 cs fs _ _ _ t1 ltac:(incls) ltac:(incls) E1 A1) as (t2 & E3' & A2).
      simpl. rewrite E2'. cbn [bind]. rewrite E3'. cbn [bind].
      assert (In id fs) by (apply If; simpl; auto).
      rewrite <- (proj2 A2) by auto.
      match goal with E : nth_error (es_flips _) id = Some _ |- _ => rewrite E end. cbn [of_option bind].
      match goal with E : flip_instant _ _ _ = _ |- _ => rewrite E end.
      eexists; split; [reflexivity|]. pose proof (proj2 A2 id H) as X.
      apply agree_set_flip; auto; eapply nth_error_some_lt; [|rewrite <- X]; eauto.
    - simpl in E. inv_ok.
      destruct (IHe2 cs fs _ _ _ t ltac:(incls) ltac:(incls) E0 A) as (t1 & E2' & A1).
      destruct (IHe3 cs fs _ _ _ t1 ltac:(incls) ltac:(incls) E1 A1) as (t2 & E3' & A2).
      destruct (IHe1 cs fs _ _ _ t2 ltac:(incls) ltac:(incls) E2 A2) as (t3 & E4' & A3).
      exists t3. simpl. rewrite E2'. cbn [bind]. rewrite E3'. cbn [bind]. rewrite E4'. cbn [bind].
      rewrite E3. auto.
    - simpl in E. inv_ok.
      destruct (IHe1 cs fs _ _ _ t ltac:(incls) ltac:(incls) E0 A) as (t0 & E0' & A0).
      destruct (IHe2 cs fs _ _ _ t0 ltac:(incls) ltac:(incls) E1 A0) as (t1 & E2' & A1).
      destruct (IHe3 cs fs _ _ _ t1 ltac:(incls) ltac:(incls) E2 A1) as (t2 & E3' & A2).
      destruct (IHe1 cs fs _ _ _ t2 ltac:(incls) ltac:(incls) E3 A2) as (t3 & E4' & A3).
      exists t3. simpl. rewrite E0'. cbn [bind]. rewrite E2'. cbn [bind]. rewrite E3'. cbn [bind].
      rewrite E4'. cbn [bind]. rewrite E4. auto.
    - simpl in E. simpl. destruct (d <=? clk) eqn:D; inv_ok.
      + destruct (IHe cs fs _ _ _ t ltac:(incls) ltac:(incls) E0 A) as (t1 & E0' & A1).
        rewrite E0'. cbn [bind].
        assert (In id cs) by (apply Ic; simpl; auto).
        rewrite <- (proj1 A1) by auto.
        match goal with E : nth_error (es_subs _) id = Some _ |- _ => rewrite E end. cbn [of_option bind]. rewrite E2. cbn [bind].
        eexists; split; [reflexivity|]. pose proof (proj1 A1 id H) as X.
        apply agree_set_sub; auto; eapply nth_error_some_lt; [|rewrite <- X]; eauto.
      + rewrite E0. exists t. auto.
  Qed.

  Lemma eval_commute : forall a b s va sa vb sb,
    (forall x, In x (calls_of a) -> ~ In x (calls_of b)) ->
    (forall x, In x (flips_of a) -> ~ In x (flips_of b)) ->
    eval' a s = Ok (va, sa) -> eval' b sa = Ok (vb, sb) ->
    exists sb', eval' b s = Ok (vb, sb') /\ eval' a sb' = Ok (va, sb).
  Proof.
    intros a b s va sa vb sb Dc Df Ea Eb.
    pose proof (eval_frame _ _ _ _ _ _ _ _ _ _ _ _ Ea) as Fa.
    pose proof (eval_frame _ _ _ _ _ _ _ _ _ _ _ _ Eb) as Fb.
    destruct Fa as (Fa1 & Fa2 & Fa3 & Fa4), Fb as (Fb1 & Fb2 & Fb3 & Fb4).
    destruct (eval_local b (calls_of b) (flips_of b) _ _ _ s (incl_refl _) (incl_refl _) Eb) as (sb' & Eb' & Ab).
    { split; intros id I; [apply Fa1|apply Fa2]; intros J; [apply (Dc id)|apply (Df id)]; auto. }
    pose proof (eval_frame _ _ _ _ _ _ _ _ _ _ _ _ Eb') as (Gb1 & Gb2 & Gb3 & Gb4).
    destruct (eval_local a (calls_of a) (flips_of a) _ _ _ sb' (incl_refl _) (incl_refl _) Ea) as (sa' & Ea' & Aa).
    { split; intros id I; symmetry; [apply Gb1|apply Gb2]; [apply Dc|apply Df]; auto. }
    pose proof (eval_frame _ _ _ _ _ _ _ _ _ _ _ _ Ea') as (Ga1 & Ga2 & Ga3 & Ga4).
    exists sb'. split; auto. rewrite Ea'. do 2 f_equal.
    destruct Aa as (Aa1 & Aa2), Ab as (Ab1 & Ab2).
    apply estate_ext; try congruence.
    - intros id. destruct (in_dec Nat.eq_dec id (calls_of a)) as [I|N].
      + rewrite <- Aa1 by auto. rewrite Fb1; auto.
      + rewrite Ga1 by auto. destruct (in_dec Nat.eq_dec id (calls_of b)) as [I'|N'].
        * rewrite <- Ab1; auto.
        * rewrite Gb1, Fb1, Fa1; auto.
    - intros id. destruct (in_dec Nat.eq_dec id (flips_of a)) as [I|N].
      + rewrite <- Aa2 by auto. rewrite Fb2; auto.
      + rewrite Ga2 by auto. destruct (in_dec Nat.eq_dec id (flips_of b)) as [I'|N'].
        * rewrite <- Ab2; auto.
        * rewrite Gb2, Fb2, Fa2; auto.
  Qed.
End Commute.

(** ** Main *)
Lemma trusted_ok_iff : forall o, (exists q, trusted o = Ok q) <-> ~ has_nil o.
Proof.
  intros o. rewrite <- trusted_panic_iff.
  destruct (trusted_total o) as [(q & H)|H]; rewrite H; split; intros; eauto; try discriminate.
  - destruct H0; discriminate.
  - congruence.
Qed.

Lemma main_finite : forall mode glob p f n fuel i,
  init_inst p f = Ok i -> n <> 0 ->
  exists r, main_fn mode glob p f n fuel = Some r /\
  (forall i', r = Ok i' <->
    exists os, run mode glob p f i (repeat (VS (Defined SUnit)) n) = Ok (os, i') /\
      length os = n /\ forall o, In o os -> ~ has_nil o).
Proof.
  intros mode glob p f n fuel i E N. unfold main_fn. rewrite E.
  destruct (Nat.eqb_spec n 0) as [|_]; [congruence|].
  eexists; split; [reflexivity|]. intros i'. rewrite main_for_run.
  split; intros (os & R & A); exists os.
  - split; auto. split.
    + apply run_length in R. rewrite repeat_length in R. auto.
    + intros o I. apply trusted_ok_iff; auto.
  - split; auto. intros o I. apply trusted_ok_iff. apply A; auto.
Qed.

Lemma main_infinite : forall mode glob p f fuel,
  (forall i', main_fn mode glob p f 0 fuel <> Some (Ok i')) /\
  (forall i, init_inst p f = Ok i ->
    (main_fn mode glob p f 0 fuel = None <-> exists i', main_for mode glob p f fuel i = Ok i')).
Proof.
  intros mode glob p f fuel. unfold main_fn. split.
  - intros i'. destruct (init_inst p f); [|discriminate]. apply main_forever_never_ok.
  - intros i ->. simpl. rewrite main_forever_progress.
    destruct (main_for _ _ _ _ fuel i); split; intros H; eauto; try discriminate.
    destruct H; discriminate.
Qed.

(** ** Conditionals *)
Lemma if_both : forall mode glob clk hists call nilout regs st c y n s v s',
  eval mode glob clk hists call nilout regs st (EIf c y n) s = Ok (v, s') ->
  exists vy s1 vn s2 vc,
    eval mode glob clk hists call nilout regs st y s = Ok (vy, s1) /\
    eval mode glob clk hists call nilout regs st n s1 = Ok (vn, s2) /\
    eval mode glob clk hists call nilout regs st c s2 = Ok (vc, s') /\
    (vc = VS (Defined (SBool true)) /\ v = vy \/
     vc = VS (Defined (SBool false)) /\ v = vn \/
     vc = VS Nil /\ ~ has_defined v /\ same_shape vy v).
Proof.
  intros. cbn [eval] in H. inv_ok. do 5 eexists. repeat split; eauto.
  match goal with H : val_ifx ?c _ _ = Ok _ |- _ =>
    unfold val_ifx in H; destruct c as [[[| |[]|]|]|]; cbn in H; inv_ok; auto end.
  right. right. split; auto. apply all_nil_spec.
Qed.

Lemma guard_refuted : exists nd v,
  n_stmts nd = [SLet (VTSingle "y"%string)
    (EIf (ECmp Eq (EVar "x"%string 0) (ELit (LInt 0))) (ELit (LInt 0)) (EBin Div (ELit (LInt 1)) (EVar "x"%string 0)))] /\
  step Checked (fun _ => None) [nd] (n_name nd) (Inst 0 [] [] [] []) v = Panic PDivZero.
Proof.
  exists (mkNode "f"%string [mkVar "x"%string BInt CImplicit 0] [mkVar "y"%string BInt CImplicit 0] [] []
    [SLet (VTSingle "y"%string)
    (EIf (ECmp Eq (EVar "x"%string 0) (ELit (LInt 0))) (ELit (LInt 0)) (EBin Div (ELit (LInt 1)) (EVar "x"%string 0)))] [] 0).
  exists (VS (Defined (SInt 0))). split; reflexivity.
Qed.

Lemma first_lacking : forall v, first_is_nil v = true <-> lacking v.
Proof.
  split.
  - revert v. fix IH 1. intros [[s|]|[|v l]] E; try discriminate E; constructor. apply IH. exact E.
  - induction 1; auto.
Qed.

Theorem absent_lacking : forall mode glob p f nd callees i v,
  find_node p f = Some (nd, callees) -> lacking v ->
  exists o, step mode glob p f i v = Ok (o, i) /\ ~ has_defined o /\ same_shape o (vars_nil (n_outputs nd)).
Proof. intros mode glob p f nd callees i v H L. apply first_lacking in L. eauto using absent_step. Qed.
