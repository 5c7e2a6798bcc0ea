(** Well-typed expressions can be translated; statements and constants. *)
From Coq Require Import String List ZArith Bool Arith Lia.
From Verif Require Import Model.Base Model.Scalar Model.Value Model.Ast Model.Errors Model.Interp Model.Options Model.Surface Model.Translate
  Model.Typecheck Spec.TypeSpec Spec.ProgramSem Spec.RangeSpec Spec.ClockSpec Spec.CrashSpec Spec.ConstSpec Spec.SourceCausal Spec.Static
  Proofs.AstInd Proofs.OutBasics Proofs.TranslateSem Proofs.ProgramProofs Proofs.Unify Proofs.CallTypes Proofs.StaticTypes.
Import ListNotations.

Definition bounded (e : sexpr) : Prop := forall z, In z (literals e) -> (- 2 ^ 63 <= z <= 2 ^ 63 - 1)%Z.

(** ** Translation *)
Section Tr.
  Variable u : bool.
  Variable locals : list ident.
  Variables vars consts : ident -> option base.
  Variable nodes : ident -> option interface.
  Notation has := (typed vars consts nodes).
  Notation works e := (forall d s, exists e' s', result (tr u locals e d s) = Some (e', s')).
  Definition goes (e : sexpr) : Prop := forall t, has e t -> bounded e -> works e.

  Lemma elems_go : forall l, Forall (fun e => works e) l -> forall d s, exists es s', result (tr_elems (tr u locals) l d s) = Some (es, s').
  Proof.
    induction 1 as [|e l H F IH]; intros d s; cbn; [eauto|]. destruct (H d s) as (e' & s' & E). rewrite (obind_ok _ _ _ E).
    destruct (IH d s') as (es & s2 & E2). fold (tr_elems (tr u locals)). rewrite (obind_ok _ _ _ E2). cbn. eauto.
  Qed.
  Lemma left_go : forall O (compose : O -> expr -> expr -> expr) l, Forall (fun p => works (snd p)) l -> forall acc d s,
    exists r s', result (tr_left (tr u locals) compose acc l d s) = Some (r, s').
  Proof.
    intros O compose. induction 1 as [|[op e] l H F IH]; intros acc d s; cbn; [eauto|]. destruct (H d s) as (e' & s' & E). rewrite (obind_ok _ _ _ E). apply IH.
  Qed.
  Lemma right_go : forall bump compose l, Forall (fun e => works e) l -> forall i d s,
    exists o s', result (tr_right (tr u locals) bump compose i l d s) = Some (o, s').
  Proof.
    intros bump compose. induction 1 as [|e l H F IH]; intros i d s; cbn; [eauto|]. destruct (IH (S i) d s) as (o & s1 & E1). fold (tr_right (tr u locals) bump compose).
    rewrite (obind_ok _ _ _ E1). destruct (H (bump d i) s1) as (e' & s2 & E2). rewrite (obind_ok _ _ _ E2).
    destruct o; [destruct (compose _ _ _ _ _)|]; cbn; eauto.
  Qed.
  Lemma forall_goes : forall l ts, Forall goes l -> Forall2 has l ts -> (forall z, In z (flat_map literals l) -> (- 2 ^ 63 <= z <= 2 ^ 63 - 1)%Z) -> Forall (fun e => works e) l.
  Proof.
    intros l ts G F. revert G. induction F as [|e t l ts H F IH]; intros G B; constructor; inversion G; subst.
    - apply (H2 t); auto. intros z Z. apply B. cbn. apply in_app_iff. auto.
    - apply IH; auto. intros z Z. apply B. cbn. apply in_app_iff. auto.
  Qed.
  Lemma forall_same : forall l t, Forall goes l -> Forall (fun e => has e t) l -> (forall z, In z (flat_map literals l) -> (- 2 ^ 63 <= z <= 2 ^ 63 - 1)%Z) -> Forall (fun e => works e) l.
  Proof.
    intros l t G F. revert G. induction F as [|e l H F IH]; intros G B; constructor; inversion G; subst.
    - apply (H2 t); auto. intros z Z. apply B. cbn. apply in_app_iff. auto.
    - apply IH; auto. intros z Z. apply B. cbn. apply in_app_iff. auto.
  Qed.
  Lemma forall_pairs : forall O (l : list (O * sexpr)) t, Forall (fun p => goes (snd p)) l -> Forall (fun p => has (snd p) t) l ->
    (forall z, In z (flat_map (fun p => literals (snd p)) l) -> (- 2 ^ 63 <= z <= 2 ^ 63 - 1)%Z) -> Forall (fun p => works (snd p)) l.
  Proof.
    intros O l t G F. revert G. induction F as [|e l H F IH]; intros G B; constructor; inversion G; subst.
    - apply (H2 t); auto. intros z Z. apply B. cbn. apply in_app_iff. auto.
    - apply IH; auto. intros z Z. apply B. cbn. apply in_app_iff. auto.
  Qed.
End Tr.

Lemma typed_goes : forall u locals vars consts nodes e, goes u locals vars consts nodes e.
Proof.
  intros u locals vars consts nodes e.
  assert (One : forall e (k : expr * tst -> out (expr * tst)), (forall d s, exists e' s', result (tr u locals e d s) = Some (e', s')) ->
    (forall p, exists q s', result (k p) = Some (q, s')) -> forall d s, exists q s', result (obind (tr u locals e d s) k) = Some (q, s')).
  { intros a k W K d s. destruct (W d s) as (e' & s' & E). rewrite (obind_ok _ _ _ E). apply K. }
  assert (Sub3 : forall a b c, bounded (XIf a b c) -> bounded a /\ bounded b /\ bounded c).
  { intros a b c B. split; [|split]; intros z Z; apply B; cbn; rewrite !in_app_iff; auto. }
  assert (Paren : forall l b, Forall (goes u locals vars consts nodes) l -> forall t, typed vars consts nodes (XParen l b) t ->
    bounded (XParen l b) -> Forall (fun e => forall d s, exists e' s', result (tr u locals e d s) = Some (e', s')) l).
  { intros l b H t T B. inversion T; subst.
    - inversion H; subst. constructor; [|constructor]. intros d s. eapply H2; eauto. intros z Z. apply B. cbn. rewrite app_nil_r. auto.
    - eapply forall_goes; eauto. }
  induction e using sexpr_ind'; intros t T B.
  - intros d s. cbn [tr]. destruct l as [n|f|b|]; inversion T; subst; cbn [tr_lit]; [|cbn; eauto..].
    assert (L : in_i64 n = true) by (assert (R : (- 2 ^ 63 <= n <= 2 ^ 63 - 1)%Z) by (apply B; cbn; auto); unfold in_i64, i64_min, i64_max; lia).
    rewrite L. cbn. eauto.
  - intros d s. cbn. eauto.
  - intros d s. cbn [tr]. destruct (elems_go u locals l (Paren _ _ H _ T B) d s) as (es & s1 & E). rewrite (obind_ok _ _ _ E). cbn. eauto.
  - intros d s. cbn [tr]. inversion T; subst. destruct (elems_go u locals l (Paren _ _ H _ H6 B) d s) as (es & s1 & E). rewrite (obind_ok _ _ _ E). cbn. eauto.
  - inversion T; subst. intros d s. cbn [tr]. apply One; [eapply IHe; eauto|]. intros [x y]. cbn. eauto.
  - inversion T; subst. intros d s. cbn [tr]. apply One; [eapply IHe; eauto|]. intros [x y]. cbn. eauto.
  - inversion T; subst. intros d s. cbn [tr]. destruct u; cbv zeta; (apply One; [eapply IHe; eauto|]); intros [x y]; cbn; eauto.
  - inversion T; subst. apply Sub3 in B. destruct B as (B1 & B2 & B3). intros d s. cbn [tr]. apply One; [eapply IHe1; eauto|]. intros [x1 y1]. apply One; [eapply IHe2; eauto|]. intros [x2 y2].
    apply One; [eapply IHe3; eauto|]. intros [x3 y3]. cbn. eauto.
  - inversion T; subst. apply Sub3 in B. destruct B as (B1 & B2 & B3). intros d s. cbn [tr]. apply One; [eapply IHe1; eauto|]. intros [x1 y1]. apply One; [eapply IHe2; eauto|]. intros [x2 y2].
    apply One; [eapply IHe3; eauto|]. intros [x3 y3]. cbn. eauto.
  - assert (B1 : bounded e) by (intros z Z; apply B; cbn; rewrite in_app_iff; auto).
    assert (B2 : forall z, In z (flat_map (fun p => literals (snd p)) l) -> (- 2 ^ 63 <= z <= 2 ^ 63 - 1)%Z) by (intros z Z; apply B; cbn; rewrite in_app_iff; auto).
    assert (X : (exists t, typed vars consts nodes e t) /\ exists t, Forall (fun p => typed vars consts nodes (snd p) t) l).
    { inversion T; subst; (split; [eauto|]); [exists t; constructor|]. exists (TSingle b). eapply Forall_impl; [|eassumption]. cbn. tauto. }
    destruct X as [[t1 T1] [t2 T2]]. intros d s. cbn [tr]. apply One; [eapply IHe; eauto|]. intros [x1 y1]. apply left_go. eapply forall_pairs; eauto.
  - assert (B1 : bounded e) by (intros z Z; apply B; cbn; rewrite in_app_iff; auto).
    inversion T; subst.
    + intros d s. cbn [tr]. apply One; [eapply IHe; eauto|]. intros [x1 y1]. cbn. eauto.
    + intros d s. cbn [tr]. apply One; [eapply IHe; eauto|]. intros [x1 y1]. inversion H; subst. cbn [snd] in *.
      assert (B2 : bounded e') by (intros z Z; apply B; cbn; rewrite !in_app_iff; auto).
      apply One; [eapply H4; eauto|]. intros [x2 y2]. cbn. eauto.
  - assert (B1 : bounded e) by (intros z Z; apply B; cbn; rewrite in_app_iff; auto).
    assert (B2 : forall z, In z (flat_map (fun p => literals (snd p)) l) -> (- 2 ^ 63 <= z <= 2 ^ 63 - 1)%Z) by (intros z Z; apply B; cbn; rewrite in_app_iff; auto).
    inversion T; subst. intros d s. cbn [tr]. apply One; [eapply IHe; eauto|]. intros [x1 y1]. apply left_go. eapply forall_pairs; eauto.
  - assert (B1 : bounded e) by (intros z Z; apply B; cbn; rewrite in_app_iff; auto).
    assert (B2 : forall z, In z (flat_map literals l) -> (- 2 ^ 63 <= z <= 2 ^ 63 - 1)%Z) by (intros z Z; apply B; cbn; rewrite in_app_iff; auto).
    inversion T; subst. intros d s. cbn [tr]. cbv zeta.
    destruct (right_go u locals (if u then fun d _ => d else fun d i => d + i) (if u then fby_registers else later) l ltac:(eapply forall_same; eauto) 1 d s) as (o & s1 & E).
    rewrite (obind_ok _ _ _ E). apply One; [eapply IHe; eauto|]. intros [x1 y1]. destruct o; [match goal with |- exists _ _, result (done ?p) = _ => destruct p end|]; cbn; eauto.
  - assert (B1 : bounded e) by (intros z Z; apply B; cbn; rewrite in_app_iff; auto).
    assert (B2 : forall z, In z (flat_map literals l) -> (- 2 ^ 63 <= z <= 2 ^ 63 - 1)%Z) by (intros z Z; apply B; cbn; rewrite in_app_iff; auto).
    inversion T; subst. intros d s. cbn [tr]. cbv zeta.
    destruct (right_go u locals (fun d _ => d) (if u then then_flips else later) l ltac:(eapply forall_same; eauto) 1 d s) as (o & s1 & E).
    rewrite (obind_ok _ _ _ E). apply One; [eapply IHe; eauto|]. intros [x1 y1]. destruct o; [match goal with |- exists _ _, result (done ?p) = _ => destruct p end|]; cbn; eauto.
Qed.

(** ** Left hand sides *)
Lemma omap_iff : forall {A B} (f : A -> out B) l l', result (omap f l) = Some l' <-> Forall2 (fun a b => result (f a) = Some b) l l'.
Proof.
  intros A B f. induction l as [|a l IH]; intros l'; cbn [omap].
  - cbn. split; [intros H; inversion H; constructor|intros H; inversion H; auto].
  - rewrite result_obind. split.
    + destruct (result (f a)) as [b|] eqn:E; [|discriminate]. rewrite result_obind. destruct (result (omap f l)) as [bs|] eqn:E2; [|discriminate].
      cbn. intros H. inversion H; subst. constructor; auto. apply IH. auto.
    + intros H. inversion H as [|? b ? bs E F]; subst. rewrite E, result_obind. apply IH in F. rewrite F. reflexivity.
Qed.
Lemma target_fits : forall ctx vars p, (forall x, In x (pattern_vars p) -> lookup x (c_vars ctx) = vars x) ->
  forall t, result (tc_target ctx (tr_target p)) = Some t <-> pattern_typed vars p t.
Proof.
  intros ctx vars p. induction p using starget_ind'; intros Hv t.
  - cbn. rewrite Hv by (cbn; auto). split.
    + destruct (vars x) eqn:E; intros H; inversion H; subst. constructor. auto.
    + intros H. inversion H as [? b E| |]; subst. rewrite E. reflexivity.
  - assert (F : forall ts, Forall2 (fun a b => result (tc_target ctx a) = Some b) (map tr_target l) ts <-> Forall2 (pattern_typed vars) l ts).
    { clear t. cbn [pattern_vars] in Hv. induction H as [|p l Hp H IH]; intros ts; cbn [map]; split; intros G; inversion G; subst; constructor;
        try (apply Hp; [intros; apply Hv; cbn; apply in_app_iff; auto|assumption]);
        (apply IH; [intros; apply Hv; cbn; apply in_app_iff; auto|assumption]). }
    assert (M : (forall p, l = [p] -> b = true) -> result (tc_target ctx (VTMult (map tr_target l))) = Some t <-> pattern_typed vars (TTuple l b) t).
    { intros N. cbn [tc_target]. split.
      - intros G. apply obind_some in G. destruct G as (ts & G & E). cbn in E. inversion E; subst. apply omap_iff in G. apply F in G. constructor; auto.
      - intros G. inversion G; subst; [discriminate (N _ eq_refl)|]. match goal with Q : Forall2 _ _ _ |- _ => apply F in Q; apply omap_iff in Q; rewrite (obind_ok _ _ _ Q) end. reflexivity. }
    cbn [tr_target]. destruct l as [|p [|p' l]]; try (apply M; discriminate). cbn [map]. destruct b; [apply M; auto|].
    inversion H; subst. rewrite H2 by (intros; apply Hv; cbn; rewrite app_nil_r; auto). split; [constructor; auto|]. intros G. inversion G; subst; auto.
    match goal with N : forall p, _ = [p] -> false = true |- _ => discriminate (N _ eq_refl) end.
Qed.

(** ** Statements *)
Lemma stmt_fits : forall ctx u locals vars consts nodes i s s' e',
  (forall x, In x locals -> exists b, lookup x (c_vars ctx) = Some b /\ vars x = Some b) ->
  (forall x, ~ In x locals -> vars x = None) -> (forall x, lookup x (c_vars ctx) = vars x) -> (forall x, lookup x (c_global ctx) = consts x) ->
  result (tr u locals (right_side i) 0 s) = Some (e', s') -> known ctx nodes (t_blocks s') ->
  forall y, (exists y', result (tc_stmt ctx (match i with XDef p _ => SLet (tr_target p) e' | XAssert _ => SAssert e' end) y) = Some y') <-> stmt_typed vars consts nodes i.
Proof.
  intros ctx u locals vars consts nodes i s s' e' Hin Hout Hv Hg E K y.
  pose proof (tr_fit ctx u locals vars consts nodes Hin Hout Hg (right_side i) _ _ _ _ E K) as F. destruct i as [p e|e]; cbn [right_side tc_stmt stmt_typed] in *.
  - split.
    + intros (y' & H). prims.
      match goal with P : result (tc_target _ _) = Some _ |- _ => apply (target_fits ctx vars) in P; [|auto]; eexists; split; [exact P|] end.
      apply (F y). eauto.
    + intros (t & P & T). apply (target_fits ctx vars) in P; [|auto]. apply (F y) in T. destruct T as (y' & T).
      rewrite (obind_ok _ _ _ (attempt_ok _ _ P)), (obind_ok _ _ _ (attempt_ok _ _ T)), !need_ok, (obind_ok _ _ _ (identical_refl _)). cbn. eauto.
  - split.
    + intros (y' & H). prims. apply (F y). eauto.
    + intros T. apply (F y) in T. destruct T as (y' & T). apply primitive_iff in T. rewrite (obind_ok _ _ _ T), (obind_ok (is_bool BBool) _ tt eq_refl). cbn. eauto.
Qed.
