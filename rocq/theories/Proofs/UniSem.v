(** Expressions compiled with [#[universal_pre]] against their reference
    meaning. *)
From Coq Require Import String List ZArith Bool Arith Lia Permutation.
From Verif Require Import Model.Base Model.Scalar Model.Value Model.Register Model.Ast Model.Errors Model.Interp Model.Options Model.Surface Model.Translate
  Model.Graph Model.Causality Model.Typecheck Model.Clockcheck Model.Positivity
  Spec.RuntimeSpec Spec.CoreSem Spec.TranslateSpec Spec.SurfaceSem Spec.ProgramSem Spec.ClockSpec Spec.UniversalSem
  Proofs.AstInd Proofs.OutBasics Proofs.InterpBasics Proofs.RegisterProofs Proofs.CoreProofs Proofs.TranslateSem Proofs.TranslateStruct Proofs.NodeWf Proofs.Paces Proofs.UniClock.
Import ListNotations.

Section Reg.
  Variable mode : ovf.
  Variable glob : ident -> option scalar.
  Variable rho : nat -> ident -> option nillable.
  Variable kappa : nat -> nat -> option val.
  Variable calls : nat -> list val -> val -> Prop.
  Variable nilouts : nat -> val -> Prop.
  Notation cs := (csem mode glob rho kappa calls nilouts).

  (** The value read from a register. *)
  Lemma register_read : forall K shape id init clk next,
    shape_ok shape = true ->
    register_holds mode glob rho kappa calls nilouts K shape id init clk next ->
    forall T, T < K -> exists n b vn out,
      cs 0 clk T (VS n) /\ nil_is n (Defined (SBool true)) = Ok b /\ cs 0 next T vn /\ kappa T id = Some out /\
      match init with
      | None =>
          if (b : bool) then last_present (cs 0 next) T out \/ (never_present (cs 0 next) T /\ out = all_nil vn)
          else out = all_nil vn
      | Some e => exists vi, cs 0 e T vi /\
          if b then last_present (cs 0 next) T out \/ (never_present (cs 0 next) T /\ out = vi)
          else out = all_nil vi
      end.
  Proof.
    intros K shape id init clk next So (st & S0 & H).
    assert (G : forall T, T <= K -> exists X b, st T = mkReg X X b /\
      ((last_present (cs 0 next) T X /\ first_is_nil X = false) \/
       (never_present (cs 0 next) T /\ first_is_nil X = true /\ all_nil X = X))).
    { induction T as [|T IH]; intros L.
      - rewrite S0. unfold reg_default. do 2 eexists. split; [reflexivity|]. right. split; [intros j J; lia|].
        split; [apply first_is_nil_all_nil; auto|apply all_nil_idem].
      - destruct IH as (X & b & E & IH); [lia|]. destruct (H T) as (n & vi & vn & out & A1 & A2 & A3 & A4 & A5 & A6 & A7); [lia|].
        rewrite E in *. unfold reg_instant, reg_with_clock in A6. cbn [r_inner r_next r_on_clock] in *.
        destruct (nil_is n (Defined (SBool true))) as [b'|] eqn:Nb; cbn [bind] in A6; [|discriminate].
        injection A6 as Eo Es. rewrite <- Es. unfold reg_schedule, reg_commit.
        destruct (first_is_nil vn) eqn:Fv.
        + exists X, b'. split.
          { destruct vi; [unfold reg_try_initialize; cbn [r_inner r_next r_on_clock]; destruct (first_is_nil X)|]; reflexivity. }
          destruct IH as [((k & Lk & Pk & Pr & Ab) & Fx)|(Nv & Fx)].
          * left. split; auto. exists k. repeat split; auto. intros j J1 J2. destruct (Nat.eq_dec j T) as [->|Nj]; [exists vn; auto|apply Ab; lia].
          * right. split; auto. intros j J. destruct (Nat.eq_dec j T) as [->|Nj]; [exists vn; auto|apply Nv; lia].
        + exists vn, b'. split.
          { destruct vi; [unfold reg_try_initialize; cbn [r_inner r_next r_on_clock]; destruct (first_is_nil X)|]; reflexivity. }
          left. split; auto. exists T. repeat split; auto. intros j J1 J2. lia. }
    intros T L. destruct (G T) as (X & b0 & E & GT); [lia|]. destruct (H T L) as (n & vi & vn & out & A1 & A2 & A3 & A4 & A5 & A6 & A7).
    rewrite E in *. unfold reg_instant, reg_with_clock in A6. cbn [r_inner r_next r_on_clock] in *.
    destruct (nil_is n (Defined (SBool true))) as [b|] eqn:Nb; cbn [bind] in A6; [|discriminate].
    injection A6 as Eo Es. exists n, b, vn, out. split; [auto|]. split; [auto|]. split; [auto|]. split; [auto|]. clear Es.
    destruct init as [e|].
    - destruct A2 as (v & -> & A2). exists v. split; auto. specialize (A4 v eq_refl).
      unfold reg_try_initialize, reg_get in Eo. cbn [r_inner r_next r_on_clock] in Eo. destruct b.
      + destruct GT as [(La & Fx)|(Nv & Fx & _)]; rewrite Fx in Eo; cbn in Eo; subst; auto.
      + destruct (first_is_nil X); cbn in Eo; subst; auto.
    - subst vi. unfold reg_get in Eo. cbn [r_inner r_on_clock] in Eo. destruct b.
      + destruct GT as [(La & Fx)|(Nv & Fx & Nx)]; subst; auto. right. split; auto. congruence.
      + congruence.
  Qed.
End Reg.

Lemma scalar_true : forall s b, scalar_eq s (SBool true) = Ok b -> s = SBool b.
Proof. intros s b H. destruct s as [z|f|c|]; cbn in H; try discriminate. destruct c; inversion H; auto. Qed.

Section Expr.
  Variable mode : ovf.
  Variable glob : ident -> option scalar.
  Variable locals : list ident.
  Variable local : list (ident * clock).
  Variable env : ident -> option pace.
  Hypothesis Hin : forall x, In x locals -> exists c, lookup x local = Some c /\ env x = Some (clock_pace c).
  Hypothesis Hout : forall x, ~ In x locals -> env x = None.
  Variable rho : nat -> ident -> option nillable.
  Variable kappa : nat -> nat -> option val.
  Variable calls : nat -> list val -> val -> Prop.
  Variable nilouts : nat -> val -> Prop.
  Variable F : ident -> list val -> val -> Prop.
  Variable K : nat.
  Notation cs := (csem mode glob rho kappa calls nilouts).
  Notation css := (csems mode glob rho kappa calls nilouts).
  Notation us := (usem mode glob locals env rho F).
  Notation uss := (usems mode glob locals env rho F).

  (** The call sites are instances of the named nodes. *)
  Definition uagree (blocks : list ident) : Prop := forall id f, nth_error blocks id = Some f ->
    forall args v, calls id args v -> F f args v.

  (** The registers of an expression work on the clock of their operand. *)
  Definition fetch_ok (e : expr) : Prop := forall id i n, occurs (EFetch id i n) e ->
    exists shape k s s', shape_ok shape = true /\ result (kc local n s) = Some (k, s') /\
      register_holds mode glob rho kappa calls nilouts K shape id i (forge_as_expr k) n.

  Lemma fetch_child : forall e c, fetch_ok e -> In c (children e) -> fetch_ok c.
  Proof. intros e c H I id i n O. apply H. eapply occ_child; eauto. Qed.

  Lemma uagree_extends : forall s s', extends s s' -> uagree (t_blocks s') -> uagree (t_blocks s).
  Proof.
    intros s s' [l E] A id f H. apply A. rewrite E, nth_error_app1; auto.
    apply nth_error_Some. rewrite H. discriminate.
  Qed.

  Lemma forge_active : forall p T n b, cs 0 (forge_as_expr (kk p)) T (VS n) -> nil_is n (Defined (SBool true)) = Ok b ->
    if b then active rho p (Z.of_nat T) else ~ active rho p (Z.of_nat T).
  Proof.
    intros [| |[|] x] T n b C N; cbn [kk forge_as_expr] in C.
    - apply csem_lit in C. inversion C; subst. cbn in N. inversion N. cbn. auto.
    - apply csem_lit in C. inversion C; subst. cbn in N. inversion N. cbn. auto.
    - apply csem_var in C. destruct C as [(_ & m & R & E)|(L & _)]; [|lia]. inversion E; subst m.
      rewrite Nat.sub_0_r in R. cbn [active]. rewrite Nat2Z.id. destruct n as [s|]; cbn in N.
      + apply scalar_true in N. subst s. destruct b; [split; auto; lia|]. intros [_ Q]. congruence.
      + inversion N. intros [_ Q]. congruence.
    - apply csem_un in C. destruct C as (w & C & U). apply csem_var in C. destruct C as [(_ & m & R & ->)|(L & _)]; [|lia].
      rewrite Nat.sub_0_r in R. cbn [active]. rewrite Nat2Z.id. destruct m as [s|].
      + cbn in U. destruct s as [z|f|c|]; cbn in U; inversion U; subst; cbn in N; try discriminate.
        destruct c; inversion N; subst; cbn; [intros [_ Q]; congruence|split; auto; lia].
      + cbn in U. inversion U; subst. cbn in N. inversion N. intros [_ Q]. congruence.
  Qed.

  Definition usound (e : sexpr) : Prop := forall s e' s',
    result (tr true locals e 0 s) = Some (e', s') -> uagree (t_blocks s') -> fetch_ok e' ->
    forall T v, T < K -> cs 0 e' T v -> us e T v.

  Lemma usound_elems : forall l, Forall usound l -> forall s es s',
    result (tr_elems (tr true locals) l 0 s) = Some (es, s') -> uagree (t_blocks s') -> Forall fetch_ok es ->
    forall T vs, T < K -> css 0 es T vs -> uss l T vs.
  Proof.
    induction 1 as [|e l H _ IH]; intros s es s' E A Fo T vs L C; cbn in E; inv_out.
    - apply csems_nil in C. subst. constructor.
    - apply csems_cons in C. destruct C as (v & vs' & -> & C1 & C2). inversion Fo; subst.
      constructor; [|eapply IH; eauto]. eapply H; eauto.
      eapply uagree_extends; [|exact A]. eapply tr_elems_grows; [|exact E1]. apply Forall_forall. intros x _. apply tr_grows.
  Qed.

  Lemma fetch_paren : forall es b, fetch_ok (paren es b) -> Forall fetch_ok es.
  Proof.
    intros es b H. apply Forall_forall. intros e I. unfold paren in H. destruct es as [|a [|a' es]]; try destruct b;
      (eapply fetch_child; [exact H|exact I]).
  Qed.

  Lemma usound_bins : forall l, Forall (fun p => usound (snd p)) l -> forall acc s r s',
    result (tr_left (tr true locals) EBin acc l 0 s) = Some (r, s') -> uagree (t_blocks s') -> fetch_ok r ->
    fetch_ok acc /\ forall T v, T < K -> cs 0 r T v -> exists w, cs 0 acc T w /\ ubins mode glob locals env rho F w l T v.
  Proof.
    induction 1 as [|[op e] l H _ IH]; intros acc s r s' E A Fo; cbn in E; inv_out.
    - split; auto. intros T v L C. exists v. split; auto. constructor.
    - assert (A0 : uagree (t_blocks t)).
      { eapply uagree_extends; [|exact A]. eapply tr_left_grows; [|exact E]. apply Forall_forall. intros x _. apply tr_grows. }
      cbn [snd] in H. destruct (IH _ _ _ _ E A Fo) as [Fb G]. split; [eapply fetch_child; [exact Fb|simpl; auto]|].
      intros T v L C. destruct (G T v L C) as (w & B & D). rewrite csem_bin in B. destruct B as (va & vb & B1 & B2 & B3).
      exists va. split; auto. econstructor; eauto. eapply H; eauto. eapply fetch_child; [exact Fb|simpl; auto].
  Qed.

  Lemma usound_clocks : forall l, Forall (fun p => usound (snd p)) l -> forall acc s r s',
    result (tr_left (tr true locals) EClock acc l 0 s) = Some (r, s') -> uagree (t_blocks s') -> fetch_ok r ->
    fetch_ok acc /\ forall T v, T < K -> cs 0 r T v -> exists w, cs 0 acc T w /\ uclocks mode glob locals env rho F w l T v.
  Proof.
    induction 1 as [|[op e] l H _ IH]; intros acc s r s' E A Fo; cbn in E; inv_out.
    - split; auto. intros T v L C. exists v. split; auto. constructor.
    - assert (A0 : uagree (t_blocks t)).
      { eapply uagree_extends; [|exact A]. eapply tr_left_grows; [|exact E]. apply Forall_forall. intros x _. apply tr_grows. }
      cbn [snd] in H. destruct (IH _ _ _ _ E A Fo) as [Fb G]. split; [eapply fetch_child; [exact Fb|simpl; auto]|].
      intros T v L C. destruct (G T v L C) as (w & B & D). rewrite csem_clock in B. destruct B as (va & vb & B1 & B2 & B3).
      exists va. split; auto. econstructor; eauto. eapply H; eauto. eapply fetch_child; [exact Fb|simpl; auto].
  Qed.

  Lemma last_weaken : forall (P Q : nat -> val -> Prop) T v, (forall j w, j < T -> P j w -> Q j w) -> last_present P T v -> last_present Q T v.
  Proof.
    intros P Q T v H (k & L & Pk & Pr & Ab). exists k. repeat split; auto. intros j J1 J2. destruct (Ab j J1 J2) as (w & A & B). exists w. auto.
  Qed.
  Lemma never_weaken : forall (P Q : nat -> val -> Prop) T, (forall j w, j < T -> P j w -> Q j w) -> never_present P T -> never_present Q T.
  Proof. intros P Q T H Nv j J. destruct (Nv j J) as (w & A & B). exists w. auto. Qed.

  Lemma usound_fby : forall l, Forall usound l -> forall i s o s',
    result (tr_right (tr true locals) (fun d _ => d) fby_registers i l 0 s) = Some (o, s') -> uagree (t_blocks s') ->
    match l with
    | [] => o = None
    | e :: l => exists r, o = Some r /\ (fetch_ok r -> forall T v, T < K -> cs 0 r T v -> us (XFby e l) T v)
    end.
  Proof.
    induction 1 as [|e l H _ IH]; intros i s o s' E A; cbn in E; [inv_out; auto|].
    apply obind_some in E. destruct E as ((o1, s1) & E0 & E). apply obind_some in E. destruct E as ((e1, s2) & E1 & E).
    assert (A2 : uagree (t_blocks s2)) by (destruct o1; cbn in E; inv_out; auto).
    assert (A1 : uagree (t_blocks s1)) by (eapply uagree_extends; [eapply tr_grows; eauto|auto]).
    specialize (IH _ _ _ _ E0 A1). destruct l as [|a l].
    - subst o1. cbn in E. inv_out. eexists. split; [reflexivity|]. intros Fo T v L C. constructor. eapply H; eauto.
    - destruct IH as (r & -> & Hr). cbn in E. inv_out. eexists. split; [reflexivity|]. intros Fo T v L C.
      assert (F1 : fetch_ok e1) by (eapply fetch_child; [exact Fo|simpl; auto]).
      assert (F2 : fetch_ok r) by (eapply fetch_child; [exact Fo|simpl; auto]).
      destruct (Fo _ _ _ (occ_here _)) as (shape & k & ks & ks' & So & Kc & R).
      destruct (register_read _ _ _ _ _ _ _ _ _ _ _ _ So R T L) as (n & b & vn & out & C1 & C2 & C3 & C4 & vi & C5 & C6).
      apply csem_fetch in C. assert (out = v) by congruence. subst out.
      assert (Up : exists p, upace_of env (XFby a l) = Some p /\ k = kk p).
      { pose proof (upaced_right local locals env (fun d _ => d) fby_registers (uhas_fby local) (a :: l)) as Q.
        destruct (Q (proj2 (Forall_forall _ _) (fun x _ => tr_upaced local locals env Hin Hout x)) _ _ _ _ _ E0) as (r' & Er & Hu).
        inversion Er; subst r'. exact (Hu _ _ _ Kc). }
      destruct Up as (p & Up & ->). pose proof (forge_active _ _ _ _ C1 C2) as Ac. specialize (Hr F2).
      assert (Hi : us e T vi) by (eapply H; eauto). destruct b.
      + assert (Tk : ticks env rho (XFby a l) T) by (exists p; auto). destruct C6 as [La|[Nv ->]].
        * apply us_fby_last; auto. eapply last_weaken; [|exact La]. intros j w J. apply Hr. lia.
        * apply us_fby_first; auto. eapply never_weaken; [|exact Nv]. intros j w J. apply Hr. lia.
      + subst v. apply us_fby_off; auto. exists p. auto.
  Qed.

  Lemma usound_then : forall l, Forall usound l -> forall i s o s',
    result (tr_right (tr true locals) (fun d _ => d) then_flips i l 0 s) = Some (o, s') -> uagree (t_blocks s') ->
    match l with
    | [] => o = None
    | e :: l => exists r, o = Some r /\ (fetch_ok r -> forall T v, T < K -> cs 0 r T v -> us (XThen e l) T v)
    end.
  Proof.
    induction 1 as [|e l H _ IH]; intros i s o s' E A; cbn in E; [inv_out; auto|].
    apply obind_some in E. destruct E as ((o1, s1) & E0 & E). apply obind_some in E. destruct E as ((e1, s2) & E1 & E).
    assert (A2 : uagree (t_blocks s2)) by (destruct o1; cbn in E; inv_out; auto).
    assert (A1 : uagree (t_blocks s1)) by (eapply uagree_extends; [eapply tr_grows; eauto|auto]).
    specialize (IH _ _ _ _ E0 A1). destruct l as [|a l].
    - subst o1. cbn in E. inv_out. eexists. split; [reflexivity|]. intros Fo T v L C. constructor. eapply H; eauto.
    - destruct IH as (r & -> & Hr). cbn in E. inv_out. eexists. split; [reflexivity|]. intros Fo T v L C.
      assert (F1 : fetch_ok e1) by (eapply fetch_child; [exact Fo|simpl; auto]).
      assert (F2 : fetch_ok r) by (eapply fetch_child; [exact Fo|simpl; auto]). specialize (Hr F2).
      assert (He : forall j w, j < K -> cs 0 e1 j w -> us e j w) by (intros; eapply H; eauto).
      inversion C; subst.
      + apply us_then_absent; auto.
      + apply us_then_first; auto. intros j J. match goal with X : forall k, 0 <= k -> _ |- _ => destruct (X j) as (w & X1 & X2); [lia|auto|] end.
        exists w. split; auto. apply He; auto. lia.
      + eapply us_then_later with (k := k); eauto. apply He; auto. lia.
  Qed.

  Lemma tr_usound : forall e, usound e.
  Proof.
    intros e. induction e using sexpr_ind'; intros s r s' E A Fo T v L C.
    - cbn [tr] in E. inv_out. destruct l; unfold tr_lit in E0; try destruct (in_i64 _); inv_out; apply csem_lit in C; subst; constructor.
    - cbn in E. inv_out. destruct (in_dec string_dec x locals) as [I|I].
      + rewrite (tr_var_local locals), csem_var in C by auto. destruct C as [(_ & n & D & ->)|(D & _)]; [|lia].
        rewrite Nat.sub_0_r in D. apply us_var; auto.
      + rewrite (tr_var_global locals), csem_global in C by auto. destruct C as (s0 & G & ->). apply us_global; auto.
    - cbn in E. inv_out. apply paren_csem in C. destruct C as (vs & C & ->). constructor. eapply usound_elems; eauto using fetch_paren.
    - cbn in E. inv_out. apply csem_sub in C. destruct C as [(C & _)|(_ & args & C1 & C2 & C3)]; [lia|].
      replace (Nat.max 0 0) with 0 in * by lia. rewrite Nat.sub_0_r in C1. assert (Fp : Forall fetch_ok l0) by (eapply fetch_paren, fetch_child; [exact Fo|simpl; auto]).
      econstructor; [exact C1| |].
      + intros k w Nk. specialize (C2 _ _ Nk). cbn [Nat.add] in C2. apply paren_csem in C2. destruct C2 as (vs & C2 & ->).
        assert (k < length args) by (apply nth_error_Some; rewrite Nk; discriminate).
        constructor. eapply usound_elems; eauto; [|lia]. eapply uagree_extends; [|exact A]. exists [f]. auto.
      + eapply A; [|exact C3]. simpl. rewrite nth_error_app2, Nat.sub_diag; auto.
    - cbn in E. inv_out. apply csem_un in C. destruct C as (w & C & U). econstructor; [|exact U]. eapply IHe; eauto. eapply fetch_child; [exact Fo|simpl; auto].
    - cbn in E. inv_out. apply csem_un in C. destruct C as (w & C & U). econstructor; [|exact U]. eapply IHe; eauto. eapply fetch_child; [exact Fo|simpl; auto].
    - cbn [tr] in E. apply obind_some in E. destruct E as ((e1, s1) & E0 & E). cbn in E. inv_out.
      assert (F1 : fetch_ok e1) by (eapply fetch_child; [exact Fo|simpl; auto]).
      destruct (Fo _ _ _ (occ_here _)) as (shape & k & ks & ks' & So & Kc & R).
      destruct (register_read _ _ _ _ _ _ _ _ _ _ _ _ So R T L) as (n & b & vn & out & C1 & C2 & C3 & C4 & C6).
      apply csem_fetch in C. assert (out = v) by congruence. subst out.
      destruct (tr_upaced local locals env Hin Hout e _ _ _ _ E0 _ _ _ Kc) as (p & Up & ->).
      pose proof (forge_active _ _ _ _ C1 C2) as Ac.
      assert (He : forall j w, j < K -> cs 0 e1 j w -> us e j w) by (intros; eapply IHe; eauto). destruct b.
      + assert (Tk : ticks env rho e T) by (exists p; auto). destruct C6 as [La|[Nv ->]].
        * apply us_pre_last; auto. eapply last_weaken; [|exact La]. intros j w J. apply He. lia.
        * apply us_pre_none; auto. eapply never_weaken; [|exact Nv]. intros j w J. apply He. lia.
      + subst v. apply us_pre_off; auto. exists p. auto.
    - cbn in E. inv_out. apply csem_if in C. destruct C as (va & vb & vc & B & C & D & G).
      assert (A1 : uagree (t_blocks t0)) by (eapply uagree_extends; [eapply tr_grows; eauto|auto]).
      assert (A0 : uagree (t_blocks t)) by (eapply uagree_extends; [eapply tr_grows; eauto|auto]).
      econstructor; [eapply IHe1|eapply IHe2|eapply IHe3|exact G]; eauto; (eapply fetch_child; [exact Fo|simpl; auto]).
    - cbn in E. inv_out. apply csem_merge in C. destruct C as (va & vb & vc & B & C & D & G).
      assert (A1 : uagree (t_blocks t0)) by (eapply uagree_extends; [eapply tr_grows; eauto|auto]).
      assert (A0 : uagree (t_blocks t)) by (eapply uagree_extends; [eapply tr_grows; eauto|auto]).
      econstructor; [eapply IHe1|eapply IHe2|eapply IHe3|exact G]; eauto; (eapply fetch_child; [exact Fo|simpl; auto]).
    - cbn in E. inv_out. destruct (usound_bins _ H _ _ _ _ E A Fo) as [F0 G]. destruct (G T v L C) as (w & B & D).
      econstructor; [|exact D]. eapply IHe; eauto. eapply uagree_extends; [|exact A]. eapply tr_left_grows; [|exact E]. apply Forall_forall. intros x _. apply tr_grows.
    - cbn in E. inv_out. destruct l as [|[op e1] [|[op' e2] l]]; inv_out.
      + constructor. eapply IHe; eauto.
      + apply csem_cmp in C. destruct C as (va & vb & B & C & D). inversion H as [|? ? H1 _]; subst. cbn [snd] in H1.
        econstructor; [eapply IHe|eapply H1|exact D]; eauto; try (eapply fetch_child; [exact Fo|simpl; auto]).
        eapply uagree_extends; [eapply tr_grows; eauto|auto].
    - cbn in E. inv_out. destruct (usound_clocks _ H _ _ _ _ E A Fo) as [F0 G]. destruct (G T v L C) as (w & B & D).
      econstructor; [|exact D]. eapply IHe; eauto. eapply uagree_extends; [|exact A]. eapply tr_left_grows; [|exact E]. apply Forall_forall. intros x _. apply tr_grows.
    - cbn [tr] in E. assert (R := chain_right (fun d _ => d) fby_registers e l 0 s r s' E).
      destruct (usound_fby (e :: l) (Forall_cons e IHe H) _ _ _ _ R A) as (r' & Er & G). inversion Er; subst r'. auto.
    - cbn [tr] in E. assert (R := chain_right (fun d _ => d) then_flips e l 0 s r s' E).
      destruct (usound_then (e :: l) (Forall_cons e IHe H) _ _ _ _ R A) as (r' & Er & G). inversion Er; subst r'. auto.
  Qed.
End Expr.
