(** Well-typed statements, nodes and programs run without structural errors. *)
From Coq Require Import String List ZArith Bool Arith Lia.
From Verif Require Import Model.Base Model.Scalar Model.Value Model.History Model.Register Model.Ast Model.Interp Model.Typecheck Model.Causality
  Spec.RuntimeSpec Spec.StepSpec Spec.CausalitySpec Spec.OrderSpec Spec.TypeSpec Proofs.AstInd Proofs.InterpBasics Proofs.RuntimeProofs Proofs.CoreProofs Proofs.CoreNode Proofs.TypeEval.
Import ListNotations.

Inductive stmt_typed (G : context) : stmt -> Prop :=
| st_let : forall x e t, target_type G x t -> has_type G e t -> stmt_typed G (SLet x e)
| st_assert : forall e, has_type G e (TSingle BBool) -> stmt_typed G (SAssert e)
| st_update : forall id e t, x_regs G id = Some t -> has_type G e t -> stmt_typed G (SUpdate id e)
| st_init : forall id v c t, x_regs G id = Some t -> OptForall (fun e => has_type G e t) v ->
    has_type G c (TSingle BBool) -> stmt_typed G (SInit id v (Some c)).

Definition targets (s : stmt) : list ident := match s with SLet t _ => target_vars t | _ => [] end.

Section Exec.
  Variable mode : ovf.
  Variable glob : ident -> option scalar.
  Variable clk : nat.
  Variable hists : list (ident * hist).
  Variable call : nat -> inst -> val -> res (val * inst).
  Variable nilout : nat -> res val.
  Variable theta : ident -> sty.
  Variable G : context.
  Variable nf : nat.
  Variable sub_ok : nat -> inst -> Prop.
  Hypothesis Hg : globals_ok glob theta G.
  Hypothesis Hh : hists_ok hists theta G.
  Hypothesis Hc : calls_ok call nilout theta G sub_ok.

  Definition binds (t : vartuple) : Prop := forall ty v st, target_type G t ty -> of_type theta ty v -> store_ok theta G st ->
    safe (bind_target t v st) (fun st' => store_ok theta G st' /\
      forall x, In x (target_vars t) \/ (exists n, lookup x st = Some n) -> exists n, lookup x st' = Some n).

  Lemma bind_go : forall l, Forall binds l -> forall ts, Forall2 (target_type G) l ts -> forall vs st, Forall2 (of_type theta) ts vs ->
    store_ok theta G st ->
    safe ((fix go (l : list vartuple) (vs : list val) (st : store) : res store :=
               match l, vs with
               | [], [] => Ok st
               | t :: l, v :: vs => st <- bind_target t v st;; go l vs st
               | _, _ => Panic PType
               end) l vs st) (fun st' => store_ok theta G st' /\
      forall x, In x (flat_map target_vars l) \/ (exists n, lookup x st = Some n) -> exists n, lookup x st' = Some n).
  Proof.
    intros l Fo ts F2. induction F2 as [|t0 ty l0 ts T F2 IH]; intros vs st F S0; inversion F; subst.
    - cbn. split; auto. intros x [[]|J]; auto.
    - inversion Fo as [|? ? IH1 Fo']; subst. eapply safe_bind; [eapply IH1; eauto|]. intros st1 [A B].
      eapply safe_weaken; [eapply IH; eauto|]. intros st2 [C D]. split; auto. intros x J. apply D.
      cbn [flat_map] in J. rewrite in_app_iff in J. destruct J as [[J|J]|J]; auto; right; apply B; auto.
  Qed.

  Lemma bind_types : forall t, binds t.
  Proof.
    induction t using vartuple_ind'; intros ty0 v st T V S0; inversion T as [? b Hx|? ts F2]; subst.
    - destruct V as (n & -> & F). cbn. split.
      + intros y m b0 L X. cbn in L. destruct (String.eqb_spec y x); [|eapply S0; eauto]. subst. inversion L; subst. congruence.
      + intros y J. cbn. destruct (String.eqb_spec y x); eauto. destruct J as [[J|[]]|J]; auto. congruence.
    - apply of_type_mult in V. destruct l as [|t [|t' l]].
      + cbn. split; auto. intros x [[]|J]; auto.
      + inversion F2 as [|? ty1 ? ts1 T1 F3]; subst. inversion F3; subst. inversion H as [|? ? IH1 _]; subst. cbn [bind_target].
        eapply safe_weaken; [eapply IH1; eauto|].
        intros st' [A B]. split; auto. intros x J. apply B. cbn in J. rewrite app_nil_r in J. auto.
      + assert (K : exists vs, v = VT vs /\ Forall2 (of_type theta) ts vs).
        { inversion F2 as [|? ? ? ? ? F3]; subst. inversion F3; subst. auto. }
        destruct K as (vs & -> & F). apply (bind_go (t :: t' :: l) H _ F2 vs st F S0).
  Qed.

  Definition ready (bound : list ident) (s : stmt) : Prop := forall x d, In (x, d) (flat_map vars_of (computed s)) ->
    match d with
    | 0 => In x bound
    | S d => exists h, lookup x hists = Some h /\ d < length (hlist h)
    end.
  Fixpoint ordered (bound : list ident) (l : list stmt) : Prop :=
    match l with
    | [] => True
    | s :: l => ready bound s /\ ordered (targets s ++ bound) l
    end.

  Record ss_ok (bound : list ident) (ss : sstate) : Prop := mkOk {
    so_store : store_ok theta G (ss_store ss);
    so_bound : forall x, In x bound -> exists n, lookup x (ss_store ss) = Some n;
    so_regs : regs_ok theta G (ss_regs ss);
    so_es : es_ok G nf sub_ok (ss_es ss)
  }.

  Lemma ready_readable : forall bound st s e, (forall x, In x bound -> exists n, lookup x st = Some n) ->
    ready bound s -> In e (computed s) -> Forall (readable hists st) (vars_of e).
  Proof.
    intros bound st s e B R J. apply Forall_forall. intros [x d] K. unfold readable. cbn [fst snd].
    specialize (R x d). destruct d as [|d]; [apply B|]; apply R; apply in_flat_map; eauto.
  Qed.

  Lemma set_reg_ok : forall regs id t r, regs_ok theta G regs -> x_regs G id = Some t -> reg_ok theta t r ->
    regs_ok theta G (set_nth id r regs).
  Proof.
    intros regs id t r R X K id' t' X'. destruct (R _ _ X') as (r' & E & K'). destruct (Nat.eq_dec id id') as [<-|N].
    - exists r. split; [apply nth_error_set_nth_eq; eapply nth_error_some_lt; eauto|]. congruence.
    - exists r'. rewrite nth_error_set_nth_neq by auto. auto.
  Qed.

  Notation ex := (exec mode glob clk hists call nilout).
  Notation exs := (execs mode glob clk hists call nilout).

  Lemma exec_types : forall s bound ss, stmt_typed G s -> ready bound s ->
    Forall (fun id => id < nf) (flat_map flips_of (computed s)) -> ss_ok bound ss ->
    safe (ex s ss) (ss_ok (targets s ++ bound)).
  Proof.
    intros s bound [st regs es] T R Fl [S1 S2 S3 S4]. cbn [ss_store ss_regs ss_es] in *.
    assert (EV : forall e t regs es, has_type G e t -> In e (computed s) -> regs_ok theta G regs -> es_ok G nf sub_ok es ->
      typed_result theta G nf sub_ok t (eval mode glob clk hists call nilout regs st e es)).
    { intros e t regs' es' He J R' E'. eapply eval_types; eauto.
      - eapply ready_readable; eauto.
      - rewrite Forall_forall in *. intros id K. apply Fl. apply in_flat_map; eauto. }
    destruct T as [x e t Tx Te|e Te|id e t X Te|id v c t X Tv Tc]; cbn [exec targets app].
    - eapply safe_bind; [apply EV; cbn; eauto|]. intros [v es1] [V E1].
      eapply safe_bind; [eapply bind_types; eauto|]. intros st' [A B]. apply safe_ok. constructor; cbn; auto.
      intros y J. apply B. apply in_app_or in J. destruct J as [J|J]; auto.
    - eapply safe_bind; [apply EV; cbn; eauto|]. intros [v es1] [V E1].
      eapply safe_bind; [eapply truth_safe; eauto|]. intros _ _. apply safe_ok. constructor; cbn; auto.
    - destruct (S3 _ _ X) as (r & Er & K). rewrite Er. cbn [of_option bind].
      eapply safe_bind; [apply EV; cbn; eauto|]. intros [v es1] [V E1].
      rewrite (type_shape theta t v (r_inner r)) by (auto; apply K). apply safe_ok. constructor; cbn; auto.
      eapply set_reg_ok; eauto. unfold reg_schedule. destruct (first_is_nil v); auto. split; cbn; auto. apply K.
    - cbn [of_option bind]. destruct (S3 _ _ X) as (r & Er & K). rewrite Er. cbn [of_option bind].
      eapply safe_bind; [apply EV; cbn; eauto|]. intros [cv es1] [V E1].
      destruct V as (n & -> & F). cbn [as_scalar bind]. unfold reg_with_clock.
      assert (N : exists b, nil_is n (Defined (SBool true)) = Ok b).
      { destruct n as [[]|]; cbn in F; try discriminate; cbn; eauto. }
      destruct N as (b & ->). cbn [bind].
      assert (K' : reg_ok theta t (mkReg (r_inner r) (r_next r) b)) by (destruct K; split; auto).
      assert (R' : regs_ok theta G (set_nth id (mkReg (r_inner r) (r_next r) b) regs)) by (eapply set_reg_ok; eauto).
      destruct v as [e|].
      + eapply safe_bind; [apply EV; eauto; cbn; auto|]. intros [v es2] [V E2].
        cbn [r_inner]. rewrite (type_shape theta t v (r_inner r)) by (auto; apply K). apply safe_ok. constructor; cbn; auto.
        eapply set_reg_ok; eauto. unfold reg_try_initialize. cbn [r_inner]. destruct (first_is_nil (r_inner r)); auto. split; cbn; auto. apply K.
      + apply safe_ok. constructor; cbn; auto.
  Qed.

  Lemma execs_types : forall l bound ss, Forall (stmt_typed G) l -> ordered bound l ->
    Forall (fun id => id < nf) (flat_map flips_of (flat_map computed l)) -> ss_ok bound ss ->
    safe (exs l ss) (fun ss' => exists bound', ss_ok bound' ss' /\ forall x, In x bound \/ In x (flat_map targets l) -> In x bound').
  Proof.
    induction l as [|s l IH]; intros bound ss T O Fl K; cbn [execs].
    - apply safe_ok. exists bound. split; auto. intros x [J|[]]; auto.
    - inversion T; subst. destruct O as [O1 O2]. cbn [flat_map] in Fl. rewrite flat_map_app, Forall_app in Fl. destruct Fl.
      eapply safe_bind; [eapply exec_types; eauto|]. intros ss1 K1.
      eapply safe_weaken; [eapply IH; eauto|]. intros ss2 (b & K2 & J2). exists b. split; auto.
      intros x J. apply J2. cbn [flat_map] in J. rewrite !in_app_iff in *. tauto.
  Qed.
End Exec.
