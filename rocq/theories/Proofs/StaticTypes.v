(** Type checking accepts the translations of the well-typed expressions. *)
From Coq Require Import String List ZArith Bool Arith Lia.
From Verif Require Import Model.Base Model.Scalar Model.Value Model.Ast Model.Errors Model.Interp Model.Options Model.Surface Model.Translate
  Model.Typecheck Spec.TypeSpec Spec.ProgramSem Spec.Static
  Proofs.AstInd Proofs.OutBasics Proofs.TranslateSem Proofs.Unify Proofs.CallTypes.
Import ListNotations.

(** ** Results *)
Lemma obind_ok : forall {A B} (x : out A) (f : A -> out B) a, result x = Some a -> result (obind x f) = result (f a).
Proof. intros A B x f a E. rewrite result_obind, E. reflexivity. Qed.
Lemma attempt_ok : forall {A} (x : out A) a, result x = Some a -> result (attempt x) = Some (Some a).
Proof. intros A [[b|] es ws|] a E; cbn in *; congruence. Qed.
Lemma need_ok : forall {A B} (a : A) (f : A -> out B), result (obind (need (Some a)) f) = result (f a).
Proof. intros. apply obind_ok. reflexivity. Qed.
Lemma primitive_iff : forall x b s, result (primitive x) = Some (b, s) <-> result x = Some (TSingle b, s).
Proof.
  intros x b s. unfold primitive. rewrite result_obind. destruct (result x) as [[[k|l] s']|]; cbn; split; intros H; try discriminate; inversion H; auto.
Qed.
Lemma identical_iff : forall a b u, result (identical UIdentity a b) = Some u <-> u = UIdentity /\ a = b.
Proof. intros a b u. split; [apply identical_eq|]. intros [-> ->]. apply identical_refl. Qed.
Lemma bool_iff : forall b u, result (is_bool b) = Some u <-> b = BBool.
Proof. intros [] []; cbn; split; congruence. Qed.
Lemma bin_iff : forall op a b u, result (bin_accepts op a b) = Some u <-> a = b /\ bin_type op a.
Proof.
  intros op a b []. unfold bin_accepts. destruct (base_eqb a b) eqn:E.
  - apply base_eqb_spec in E. subst b. destruct op, a; cbn; (split; [intros H; try discriminate H; auto|intros [_ H]; try reflexivity; exfalso; intuition discriminate]).
  - split; [discriminate|]. intros [-> _]. rewrite base_eqb_refl in E. discriminate.
Qed.
Lemma cmp_iff : forall op a b u, result (cmp_accepts op a b) = Some u <-> a = b /\ cmp_type op a.
Proof.
  intros op a b []. unfold cmp_accepts. destruct (base_eqb a b) eqn:E.
  - apply base_eqb_spec in E. subst b. destruct op, a; cbn; (split; [intros H; try discriminate H; auto|intros [_ H]; try reflexivity; exfalso; intuition discriminate]).
  - split; [discriminate|]. intros [-> _]. rewrite base_eqb_refl in E. discriminate.
Qed.
Lemma un_iff : forall op a u, result (un_accepts op a) = Some u <-> un_type op a.
Proof. intros op a []. destruct op, a; cbn; (split; [intros H; try discriminate H; auto|intros H; try reflexivity; exfalso; intuition discriminate]). Qed.

Ltac prims := inv_out; repeat match goal with
  | H : result (primitive _) = Some _ |- _ => apply primitive_iff in H
  | H : result (bin_accepts _ _ _) = Some _ |- _ => apply bin_iff in H; destruct H as [? H]; subst
  | H : result (cmp_accepts _ _ _) = Some _ |- _ => apply cmp_iff in H; destruct H as [? H]; subst
  | H : result (un_accepts _ _) = Some _ |- _ => apply un_iff in H
  | H : result (is_bool _) = Some _ |- _ => apply bool_iff in H; subst
  | H : result (identical UIdentity _ _) = Some _ |- _ => apply identical_iff in H; destruct H as [_ ?]; subst
  end.

Section Ctx.
  Variable ctx : tctx.

  (** [P] are the types of [e]. *)
  Definition infers (e : expr) (P : ty -> Prop) : Prop :=
    forall y t, (exists y', result (tc ctx e y) = Some (t, y')) <-> P t.

  Lemma infers_same : forall e P Q, infers e P -> (forall t, P t <-> Q t) -> infers e Q.
  Proof. intros e P Q H E y t. rewrite <- E. apply H. Qed.
  Lemma infers_one : forall e P t t', infers e P -> P t -> P t' -> t = t'.
  Proof.
    intros e P t t' H A B. apply (H tyst0) in A. apply (H tyst0) in B. destruct A as (? & A), B as (? & B). congruence.
  Qed.

  Lemma infers_bin : forall op a b P Q, infers a P -> infers b Q ->
    infers (EBin op a b) (fun t => exists k, t = TSingle k /\ P (TSingle k) /\ Q (TSingle k) /\ bin_type op k).
  Proof.
    intros op a b P Q A B y t. cbn [tc]. split.
    - intros (y' & H). prims.
      eexists. split; [reflexivity|]. split; [apply (A y); eauto|]. split; auto. eapply B; eauto.
    - intros (k & -> & HA & HB & T). apply (A y) in HA. destruct HA as (y1 & HA). apply (B y1) in HB. destruct HB as (y2 & HB).
      apply primitive_iff in HA. apply primitive_iff in HB. rewrite (obind_ok _ _ _ (attempt_ok _ _ HA)). cbn [next_st].
      rewrite (obind_ok _ _ _ (attempt_ok _ _ HB)). rewrite !need_ok.
      rewrite (obind_ok _ _ _ (proj2 (bin_iff op k k tt) (conj eq_refl T))). cbn. eauto.
  Qed.
  Lemma infers_cmp : forall op a b P Q, infers a P -> infers b Q ->
    infers (ECmp op a b) (fun t => t = TSingle BBool /\ exists k, P (TSingle k) /\ Q (TSingle k) /\ cmp_type op k).
  Proof.
    intros op a b P Q A B y t. cbn [tc]. split.
    - intros (y' & H). prims.
      split; [reflexivity|]. eexists. split; [apply (A y); eauto|]. split; eauto. eapply B; eauto.
    - intros (-> & k & HA & HB & T). apply (A y) in HA. destruct HA as (y1 & HA). apply (B y1) in HB. destruct HB as (y2 & HB).
      apply primitive_iff in HA. apply primitive_iff in HB. rewrite (obind_ok _ _ _ (attempt_ok _ _ HA)). cbn [next_st].
      rewrite (obind_ok _ _ _ (attempt_ok _ _ HB)). rewrite !need_ok.
      rewrite (obind_ok _ _ _ (proj2 (cmp_iff op k k tt) (conj eq_refl T))). cbn. eauto.
  Qed.
  Lemma infers_un : forall op a P, infers a P ->
    infers (EUn op a) (fun t => exists k, t = TSingle k /\ P (TSingle k) /\ un_type op k).
  Proof.
    intros op a P A y t. cbn [tc]. split.
    - intros (y' & H). prims. eexists. split; [reflexivity|]. split; auto. apply (A y). eauto.
    - intros (k & -> & HA & T). apply (A y) in HA. destruct HA as (y1 & HA). apply primitive_iff in HA. rewrite (obind_ok _ _ _ HA).
      rewrite result_obind, (proj2 (un_iff op k tt)); auto. cbn. eauto.
  Qed.
  Lemma infers_pair : forall e a b P Q,
    (forall y, tc ctx e y = (l <~ attempt (tc ctx a y);; r <~ attempt (tc ctx b (next_st l y));; '(l, _) <~ need l;; '(r, y) <~ need r;;
        _ <~ identical UIdentity l r;; done (l, y))) ->
    infers a P -> infers b Q -> infers e (fun t => P t /\ Q t).
  Proof.
    intros e a b P Q D A B y t. rewrite D. split.
    - intros (y' & H). prims. split; [apply (A y); eauto|eapply B; eauto].
    - intros (HA & HB). apply (A y) in HA. destruct HA as (y1 & HA). apply (B y1) in HB. destruct HB as (y2 & HB).
      rewrite (obind_ok _ _ _ (attempt_ok _ _ HA)). cbn [next_st]. rewrite (obind_ok _ _ _ (attempt_ok _ _ HB)).
      rewrite !need_ok, (obind_ok _ _ _ (identical_refl _)). cbn. eauto.
  Qed.
  Lemma infers_fetch : forall id a b P Q, infers a P -> infers b Q -> infers (EFetch id (Some a) b) (fun t => P t /\ Q t).
  Proof.
    intros id a b P Q A B y t. cbn [tc]. split.
    - intros (y' & H). prims. split; [eapply A; eauto|eapply B; eauto].
    - intros (HA & HB). apply (B y) in HB. destruct HB as (y1 & HB). apply (A y1) in HA. destruct HA as (y2 & HA).
      rewrite (obind_ok _ _ _ HB). rewrite result_obind, (obind_ok _ _ _ HA), (obind_ok _ _ _ (identical_refl _)). cbn. eauto.
  Qed.
  Lemma infers_fetch0 : forall id a P, infers a P -> infers (EFetch id None a) P.
  Proof.
    intros id a P A y t. cbn [tc]. rewrite <- (A y). split; intros (y' & H).
    - inv_out. eauto.
    - rewrite (obind_ok _ _ _ H). cbn. eauto.
  Qed.
  Lemma infers_if : forall c a b O P Q, infers c O -> infers a P -> infers b Q ->
    infers (EIf c a b) (fun t => O (TSingle BBool) /\ P t /\ Q t).
  Proof.
    intros c a b O P Q C A B y t. cbn [tc]. split.
    - intros (y' & H). prims.
      split; [apply (C y); eauto|]. split; [eapply A; eauto|eapply B; eauto].
    - intros (HC & HA & HB). apply (C y) in HC. destruct HC as (y0 & HC). apply (A y0) in HA. destruct HA as (y1 & HA). apply (B y1) in HB. destruct HB as (y2 & HB).
      apply primitive_iff in HC. rewrite (obind_ok _ _ _ (attempt_ok _ _ HC)). cbn [next_st]. rewrite (obind_ok _ _ _ (attempt_ok _ _ HA)). cbn [next_st].
      rewrite (obind_ok _ _ _ (attempt_ok _ _ HB)). rewrite need_ok, (obind_ok (is_bool BBool) _ tt eq_refl), !need_ok, (obind_ok _ _ _ (identical_refl _)). cbn. eauto.
  Qed.
  Lemma infers_merge : forall c a b O P Q, infers c O -> infers a P -> infers b Q ->
    infers (EMerge c a b) (fun t => O (TSingle BBool) /\ P t /\ Q t).
  Proof.
    intros c a b O P Q C A B y t. cbn [tc]. split.
    - intros (y' & H). prims. destruct t0; cbn in *; [|discriminate]. prims.
      split; [apply (C y); eauto|]. split; [eapply A; eauto|eapply B; eauto].
    - intros (HC & HA & HB). apply (C y) in HC. destruct HC as (y0 & HC). apply (A y0) in HA. destruct HA as (y1 & HA). apply (B y1) in HB. destruct HB as (y2 & HB).
      rewrite (obind_ok _ _ _ HC), (obind_ok _ _ _ HA), (obind_ok _ _ _ HB). rewrite (obind_ok (is_primitive (TSingle BBool)) _ BBool eq_refl), (obind_ok (is_bool BBool) _ tt eq_refl), (obind_ok _ _ _ (identical_refl _)). cbn. eauto.
  Qed.
  Lemma infers_clock : forall k a b P Q, infers a P -> infers b Q ->
    infers (EClock k a b) (fun t => P t /\ Q (TSingle BBool)).
  Proof.
    intros k a b P Q A B y t. cbn [tc]. split.
    - intros (y' & H). prims. split; [eapply A; eauto|eapply B; eauto].
    - intros (HA & HB). apply (B y) in HB. destruct HB as (y1 & HB). apply (A y1) in HA. destruct HA as (y2 & HA).
      apply primitive_iff in HB. rewrite (obind_ok _ _ _ (attempt_ok _ _ HB)). cbn [next_st]. rewrite (obind_ok _ _ _ HA), need_ok, (obind_ok (is_bool BBool) _ tt eq_refl). cbn. eauto.
  Qed.
  Lemma infers_list : forall es Ps, Forall2 infers es Ps -> forall y ts,
    (exists y', result (tcs ctx es y) = Some (ts, y')) <-> Forall2 (fun (P : ty -> Prop) t => P t) Ps ts.
  Proof.
    induction 1 as [|e P es Ps H F IH]; intros y ts; cbn [tcs].
    - cbn. split; [intros (y' & E); inversion E; constructor|intros E; inversion E; eauto].
    - split.
      + intros (y' & E). inv_out. constructor; [apply (H y); eauto|]. eapply IH; eauto.
      + intros E. inversion E as [|? t ? ts' Ht Hts]; subst. apply (H y) in Ht. destruct Ht as (y1 & Ht). apply (IH y1) in Hts. destruct Hts as (y2 & Hts).
        rewrite (obind_ok _ _ _ Ht), (obind_ok _ _ _ Hts). cbn. eauto.
  Qed.
  Lemma infers_tuple : forall es Ps, Forall2 infers es Ps ->
    infers (ETuple es) (fun t => exists ts, t = TMult ts /\ Forall2 (fun (P : ty -> Prop) t => P t) Ps ts).
  Proof.
    intros es Ps F y t. cbn [tc]. fold (tcs ctx). split.
    - intros (y' & H). inv_out. eexists. split; [reflexivity|]. eapply infers_list; eauto.
    - intros (ts & -> & H). apply (infers_list _ _ F y) in H. destruct H as (y' & H). rewrite (obind_ok _ _ _ H). cbn. eauto.
  Qed.
  Lemma infers_sub : forall d id args f P, nth_error (c_blocks ctx) id = Some f ->
    (forall x, In (BOther x) (g_ins f) <-> In x (g_params f)) ->
    (forall x, In (BOther x) (g_outs f) -> In x (g_params f)) -> infers args P ->
    infers (ESub d id args) (fun t => NoDup (g_params f) /\
      exists sigma, P (tuple_ty (map (inst_base sigma) (g_ins f))) /\ t = tuple_ty (map (inst_base sigma) (g_outs f))).
  Proof.
    intros d id args f P E Hi Ho A y t. split.
    - intros (y' & H). assert (G := H). cbn [tc] in G. rewrite E in G. apply obind_some in G. destruct G as ((a & y1) & Ta & G).
      apply obind_some in G. destruct G as (u & Eu & _). apply from_generics_some in Eu. destruct Eu as [N _]. split; auto.
      destruct (proj1 (call_types ctx d id args y f a y1 t E N Hi Ho Ta) (ex_intro _ _ H)) as (sigma & -> & ->).
      exists sigma. split; auto. apply (A y). eauto.
    - intros (N & sigma & HA & ->). apply (A y) in HA. destruct HA as (y1 & HA).
      apply (proj2 (call_types ctx d id args y f _ y1 _ E N Hi Ho HA)). eauto.
  Qed.

  Variable u : bool.
  Variable locals : list ident.
  Variables vars consts : ident -> option base.
  Variable nodes : ident -> option interface.
  Hypothesis Hin : forall x, In x locals -> exists b, lookup x (c_vars ctx) = Some b /\ vars x = Some b.
  Hypothesis Hout : forall x, ~ In x locals -> vars x = None.
  Hypothesis Hglob : forall x, lookup x (c_global ctx) = consts x.
  Definition known (bl : list ident) : Prop := forall i f, nth_error bl i = Some f -> exists g, nth_error (c_blocks ctx) i = Some g /\ nodes f = Some (g_params g, (g_ins g, g_outs g)) /\ (forall x, In (BOther x) (g_ins g) <-> In x (g_params g)) /\ (forall x, In (BOther x) (g_outs g) -> In x (g_params g)).
  Lemma known_before : forall s s', TranslateSem.extends s s' -> known (t_blocks s') -> known (t_blocks s).
  Proof.
    intros s s' [l E] K i f H. apply K. rewrite E. rewrite nth_error_app1; auto. apply nth_error_Some. congruence.
  Qed.
  Notation has := (typed vars consts nodes).
  Definition fit (e : sexpr) : Prop := forall d s e' s', result (tr u locals e d s) = Some (e', s') -> known (t_blocks s') -> infers e' (has e).

  Lemma fit_elems : forall l, Forall fit l -> forall d s es s', result (tr_elems (tr u locals) l d s) = Some (es, s') -> known (t_blocks s') ->
    Forall2 infers es (map has l).
  Proof.
    induction 1 as [|e l H F IH]; intros d s es s' E K; cbn in E; inv_out; constructor.
    - eapply H; eauto. eapply known_before; [|exact K]. eapply tr_elems_grows; [|exact E1]. apply Forall_forall. intros x _. apply tr_grows.
    - eapply IH; eauto.
  Qed.
  Lemma holds_types : forall (l : list sexpr) ts, Forall2 (fun (P : ty -> Prop) t => P t) (map has l) ts <-> Forall2 has l ts.
  Proof.
    induction l as [|e l IH]; intros ts; cbn [map]; split; intros H; inversion H; subst; constructor; auto; apply IH; auto.
  Qed.
  Lemma fit_paren : forall l es b, Forall2 infers es (map has l) -> infers (paren es b) (has (XParen l b)).
  Proof.
    intros l es b F. pose proof (infers_tuple _ _ F) as T.
    assert (G : (forall e, l = [e] -> b = true) -> infers (ETuple es) (has (XParen l b))).
    { intros N. eapply infers_same; [exact T|]. intros t. split.
      - intros (ts & -> & H). apply holds_types in H. constructor; auto.
      - intros H. inversion H; subst; [discriminate (N _ eq_refl)|]. eexists. split; [reflexivity|]. apply holds_types. auto. }
    unfold paren. destruct es as [|e1 [|e2 es]]; try (apply G; intros e ->; inversion F; subst;
      match goal with H : Forall2 _ _ [] |- _ => inversion H end; fail).
    destruct l as [|e [|e' l]]; try (inversion F; fail); try (inversion F; subst; match goal with H : Forall2 _ [] _ |- _ => inversion H end; fail).
    destruct b; [apply G; auto|]. inversion F; subst. intros y t. cbn [tc]. rewrite (H2 y t). split; [constructor; auto|].
    intros H. inversion H; subst; auto. match goal with N : forall e, _ -> false = true |- _ => discriminate (N _ eq_refl) end.
  Qed.
  Lemma fit_bins : forall l, Forall (fun p => fit (snd p)) l -> forall acc P d s r s', infers acc P ->
    result (tr_left (tr u locals) EBin acc l d s) = Some (r, s') -> known (t_blocks s') ->
    infers r (fun t => match l with [] => P t | _ => exists b, t = TSingle b /\ P t /\ Forall (fun p => bin_type (fst p) b /\ has (snd p) (TSingle b)) l end).
  Proof.
    induction 1 as [|[op e] l H F IH]; intros acc P d s r s' A E K; cbn in E.
    - inv_out. exact A.
    - apply obind_some in E. destruct E as ((e1, s1) & E1 & E). cbn [snd] in H.
      assert (K1 : known (t_blocks s1)).
      { eapply known_before; [|exact K]. eapply tr_left_grows; [|exact E]. apply Forall_forall. intros x _. apply tr_grows. }
      pose proof (infers_bin op _ _ _ _ A (H _ _ _ _ E1 K1)) as B. eapply infers_same; [exact (IH _ _ _ _ _ _ B E K)|]. intros t. destruct l as [|p l].
      + split; intros (k & -> & X & Y); exists k; (split; [auto|]).
        * split; auto. constructor; [cbn; tauto|constructor].
        * inversion Y; subst. cbn in *. tauto.
      + split; intros (k & -> & X & Y); exists k; (split; [auto|]).
        * destruct X as (k' & E' & X1 & X2 & X3). inversion E'; subst k'. split; auto.
        * inversion Y; subst. cbn in *. split; auto. exists k. tauto.
  Qed.
  Lemma fit_clocks : forall l, Forall (fun p => fit (snd p)) l -> forall acc P d s r s', infers acc P ->
    result (tr_left (tr u locals) EClock acc l d s) = Some (r, s') -> known (t_blocks s') ->
    infers r (fun t => P t /\ Forall (fun p => has (snd p) (TSingle BBool)) l).
  Proof.
    induction 1 as [|[op e] l H F IH]; intros acc P d s r s' A E K; cbn in E.
    - inv_out. eapply infers_same; [exact A|]. intros t. split; [auto|tauto].
    - apply obind_some in E. destruct E as ((e1, s1) & E1 & E). cbn [snd] in H.
      assert (K1 : known (t_blocks s1)).
      { eapply known_before; [|exact K]. eapply tr_left_grows; [|exact E]. apply Forall_forall. intros x _. apply tr_grows. }
      pose proof (infers_clock op _ _ _ _ A (H _ _ _ _ E1 K1)) as B. eapply infers_same; [exact (IH _ _ _ _ _ _ B E K)|]. intros t. cbn [snd].
      split; [intros [[X Y] Z]; auto|]. intros [X Y]. inversion Y; subst. cbn in *. tauto.
  Qed.
  Lemma fit_right : forall bump compose,
    (forall d i a b s r s', compose d i a b s = (r, s') -> TranslateSem.extends s s') ->
    (forall d i a b s P Q, infers a P -> infers b Q -> infers (fst (compose d i a b s)) (fun t => P t /\ Q t)) ->
    forall l, Forall fit l -> forall i d s o s', result (tr_right (tr u locals) bump compose i l d s) = Some (o, s') -> known (t_blocks s') ->
    match o with None => l = [] | Some r => l <> [] /\ infers r (fun t => Forall (fun e => has e t) l) end.
  Proof.
    intros bump compose G C. induction 1 as [|e l H F IH]; intros i d s o s' E K; cbn in E.
    - inv_out. auto.
    - apply obind_some in E. destruct E as ((acc, s1) & E1 & E). apply obind_some in E. destruct E as ((e1, s2) & E2 & E).
      destruct acc as [after|].
      + destruct (compose d i e1 after s2) as [r s3] eqn:Ec. cbn in E. inversion E; subst. split; [discriminate|].
        assert (K2 : known (t_blocks s2)) by (eapply known_before; [eapply G; eauto|auto]).
        assert (K1 : known (t_blocks s1)) by (eapply known_before; [eapply tr_grows; eauto|auto]).
        destruct (IH _ _ _ _ _ E1 K1) as [_ I2]. pose proof (C d i _ _ s2 _ _ (H _ _ _ _ E2 K2) I2) as X. rewrite Ec in X.
        eapply infers_same; [exact X|]. intros t. split; [intros []; constructor; auto|inversion 1; auto].
      + cbn in E. inversion E; subst. split; [discriminate|].
        assert (K1 : known (t_blocks s1)) by (eapply known_before; [eapply tr_grows; eauto|auto]).
        pose proof (IH _ _ _ _ _ E1 K1) as X. cbn in X. subst l. eapply infers_same; [exact (H _ _ _ _ E2 K)|].
        intros t. split; [intros; constructor; auto|inversion 1; auto].
  Qed.
  Lemma fit_chain : forall bump (compose : nat -> nat -> expr -> expr -> tst -> expr * tst),
    (forall d i a b s r s', compose d i a b s = (r, s') -> TranslateSem.extends s s') ->
    (forall d i a b s P Q, infers a P -> infers b Q -> infers (fst (compose d i a b s)) (fun t => P t /\ Q t)) ->
    forall e l, fit e -> Forall fit l -> forall d s r s',
    result ('(acc, s) <~ tr_right (tr u locals) bump compose 1 l d s;;
            '(e, s) <~ tr u locals e (bump d 0) s;;
            match acc with None => done (e, s) | Some after => done (compose d 0 e after s) end) = Some (r, s') -> known (t_blocks s') ->
    infers r (fun t => has e t /\ Forall (fun e => has e t) l).
  Proof.
    intros bump compose G C e l He Hl d s r s' E K. apply obind_some in E. destruct E as ((acc, s1) & E1 & E). apply obind_some in E. destruct E as ((e1, s2) & E2 & E).
    assert (K2 : known (t_blocks s2)).
    { destruct acc; cbn in E; inversion E; subst; auto. destruct (compose d 0 e1 e0 s2) as [r0 s3] eqn:Ec.
      match goal with H : (_, _) = (_, _) |- _ => inversion H; subst end. eapply known_before; [eapply G; eauto|auto]. }
    assert (K1 : known (t_blocks s1)) by (eapply known_before; [eapply tr_grows; eauto|auto]).
    pose proof (fit_right bump compose G C l Hl _ _ _ _ _ E1 K1) as X. destruct acc as [after|].
    - destruct X as [_ X]. pose proof (C d 0 _ _ s2 _ _ (He _ _ _ _ E2 K2) X) as Y. cbn in E. inversion E as [Ec]. rewrite Ec in Y. exact Y.
    - cbn in E. inversion E; subst. eapply infers_same; [exact (He _ _ _ _ E2 K2)|]. intros t. split; [auto|tauto].
  Qed.
End Ctx.

Lemma later_pair : forall ctx d i a b s P Q, infers ctx a P -> infers ctx b Q -> infers ctx (fst (later d i a b s)) (fun t => P t /\ Q t).
Proof. intros. cbn [later fst]. eapply infers_pair; eauto. reflexivity. Qed.
Lemma flip_pair : forall ctx d i a b s P Q, infers ctx a P -> infers ctx b Q -> infers ctx (fst (then_flips d i a b s)) (fun t => P t /\ Q t).
Proof. intros. cbn [then_flips fst]. eapply infers_pair; eauto. reflexivity. Qed.
Lemma fby_pair : forall ctx d i a b s P Q, infers ctx a P -> infers ctx b Q -> infers ctx (fst (fby_registers d i a b s)) (fun t => P t /\ Q t).
Proof. intros. cbn [fby_registers fst]. apply infers_fetch; auto. Qed.

Lemma tr_fit : forall ctx u locals vars consts nodes,
  (forall x, In x locals -> exists b, lookup x (c_vars ctx) = Some b /\ vars x = Some b) ->
  (forall x, ~ In x locals -> vars x = None) -> (forall x, lookup x (c_global ctx) = consts x) ->
  forall e, fit ctx u locals vars consts nodes e.
Proof.
  intros ctx u locals vars consts nodes Hin Hout Hg e. induction e using sexpr_ind'; intros d s e' s' E K; cbn [tr] in E.
  - inv_out. intros y t. destruct l; unfold tr_lit in *; try destruct (in_i64 _); inv_out; cbn; split; intros H;
      try (destruct H as (y' & H); inversion H; constructor); inversion H; eauto.
  - inv_out. unfold tr_var. destruct (existsb (String.eqb x) locals) eqn:Q.
    + apply existsb_exists in Q. destruct Q as (z & Z & Q). apply String.eqb_eq in Q. subst z. destruct (Hin _ Z) as (b & L & V).
      intros y t. cbn [tc]. rewrite L. cbn. split; [intros (y' & H); inversion H; subst; constructor; unfold name_type; rewrite V; auto|].
      intros H. inversion H as [| | |? b' N| | | | | | | | | | | | | | |]; subst. unfold name_type in N. rewrite V in N. inversion N; subst. eauto.
    + assert (N : ~ In x locals).
      { intros J. assert (T : existsb (String.eqb x) locals = true) by (apply existsb_exists; exists x; split; auto; apply String.eqb_refl). congruence. }
      apply Hout in N. intros y t. cbn [tc]. rewrite Hg. split.
      * intros (y' & H). destruct (consts x) as [b|] eqn:C; [|discriminate]. inversion H; subst. constructor. unfold name_type. rewrite N. auto.
      * intros H. inversion H as [| | |? b' N'| | | | | | | | | | | | | | |]; subst. unfold name_type in N'. rewrite N in N'. rewrite N'. cbn. eauto.
  - apply obind_some in E. destruct E as ((es, s1) & E1 & E). cbn in E. inversion E; subst. apply fit_paren. eapply fit_elems; eauto.
  - apply obind_some in E. destruct E as ((es, s1) & E1 & E). cbn in E. inversion E; subst.
    destruct (K (length (t_blocks s1)) f) as (g & Eg & En & Wi & Wo).
    { cbn. rewrite nth_error_app2, Nat.sub_diag by lia. reflexivity. }
    assert (K1 : known ctx nodes (t_blocks s1)) by (eapply known_before; [|exact K]; exists [f]; reflexivity).
    eapply infers_same; [eapply infers_sub; eauto; apply fit_paren; eapply fit_elems; eauto|]. intros t. split.
    + intros (N & sigma & T & ->). econstructor; eauto.
    + intros H'. inversion H' as [| | | | | |? ? ? ps ins outs sigma Ef N T| | | | | | | | | | | |]; subst. rewrite En in Ef. inversion Ef; subst. split; auto. exists sigma. auto.
  - apply obind_some in E. destruct E as ((e1, s1) & E1 & E). cbn in E. inversion E; subst.
    eapply infers_same; [exact (infers_un ctx Neg _ _ (IHe _ _ _ _ E1 K))|]. intros t. split; [intros (k & -> & A & B); constructor; auto|].
    intros H. inversion H; subst. eauto.
  - apply obind_some in E. destruct E as ((e1, s1) & E1 & E). cbn in E. inversion E; subst.
    eapply infers_same; [exact (infers_un ctx Not _ _ (IHe _ _ _ _ E1 K))|]. intros t. split; [intros (k & -> & A & B); constructor; auto|].
    intros H. inversion H; subst. eauto.
  - destruct u.
    + apply obind_some in E. destruct E as ((e1, s1) & E1 & E). cbn in E. inversion E; subst.
      eapply infers_same; [exact (infers_fetch0 ctx _ _ _ (IHe _ _ _ _ E1 K))|]. intros t. split; [constructor; auto|inversion 1; auto].
    + apply obind_some in E. destruct E as ((e1, s1) & E1 & E). cbn in E. inversion E; subst.
      eapply infers_same; [intros y t; cbn [tc]; exact (IHe _ _ _ _ E1 K y t)|]. intros t. split; [constructor; auto|inversion 1; auto].
  - apply obind_some in E. destruct E as ((c1, s1) & E1 & E). apply obind_some in E. destruct E as ((a1, s2) & E2 & E).
    apply obind_some in E. destruct E as ((b1, s3) & E3 & E). cbn in E. inversion E; subst.
    assert (K2 : known ctx nodes (t_blocks s2)) by (eapply known_before; [eapply tr_grows; eauto|auto]).
    assert (K1 : known ctx nodes (t_blocks s1)) by (eapply known_before; [eapply tr_grows; eauto|auto]).
    eapply infers_same; [exact (infers_if ctx _ _ _ _ _ _ (IHe1 _ _ _ _ E1 K1) (IHe2 _ _ _ _ E2 K2) (IHe3 _ _ _ _ E3 K))|].
    intros t. split; [intros (A & B & C); constructor; auto|inversion 1; auto].
  - apply obind_some in E. destruct E as ((c1, s1) & E1 & E). apply obind_some in E. destruct E as ((a1, s2) & E2 & E).
    apply obind_some in E. destruct E as ((b1, s3) & E3 & E). cbn in E. inversion E; subst.
    assert (K2 : known ctx nodes (t_blocks s2)) by (eapply known_before; [eapply tr_grows; eauto|auto]).
    assert (K1 : known ctx nodes (t_blocks s1)) by (eapply known_before; [eapply tr_grows; eauto|auto]).
    eapply infers_same; [exact (infers_merge ctx _ _ _ _ _ _ (IHe1 _ _ _ _ E1 K1) (IHe2 _ _ _ _ E2 K2) (IHe3 _ _ _ _ E3 K))|].
    intros t. split; [intros (A & B & C); constructor; auto|inversion 1; auto].
  - apply obind_some in E. destruct E as ((e1, s1) & E1 & E).
    assert (K1 : known ctx nodes (t_blocks s1)).
    { eapply known_before; [|exact K]. eapply tr_left_grows; [|exact E]. apply Forall_forall. intros x _. apply tr_grows. }
    eapply infers_same; [eapply fit_bins; eauto; exact (IHe _ _ _ _ E1 K1)|]. cbv beta. intros t. destruct l as [|p l].
    + split; [constructor; auto|]. inversion 1; subst; auto.
    + split; [intros (b & -> & A & B); apply t_bin; auto; discriminate|]. inversion 1; subst. eauto.
  - apply obind_some in E. destruct E as ((e1, s1) & E1 & E). destruct l as [|[op e2] [|[op' e3] l]].
    + cbn in E. inversion E; subst. eapply infers_same; [exact (IHe _ _ _ _ E1 K)|]. intros t. split; [constructor; auto|inversion 1; auto].
    + apply obind_some in E. destruct E as ((e2', s2) & E2 & E). cbn in E. inversion E; subst. inversion H as [|? ? H2 _]; subst. cbn [snd] in H2.
      assert (K1 : known ctx nodes (t_blocks s1)) by (eapply known_before; [eapply tr_grows; eauto|auto]).
      eapply infers_same; [exact (infers_cmp ctx op _ _ _ _ (IHe _ _ _ _ E1 K1) (H2 _ _ _ _ E2 K))|]. intros t.
      split; [intros (-> & k & A & B & C); econstructor; eauto|]. inversion 1; subst. split; eauto.
    + inv_out.
  - apply obind_some in E. destruct E as ((e1, s1) & E1 & E).
    assert (K1 : known ctx nodes (t_blocks s1)).
    { eapply known_before; [|exact K]. eapply tr_left_grows; [|exact E]. apply Forall_forall. intros x _. apply tr_grows. }
    eapply infers_same; [eapply fit_clocks; eauto; exact (IHe _ _ _ _ E1 K1)|]. cbv beta. intros t.
    split; [intros [A B]; constructor; auto|inversion 1; auto].
  - assert (X : infers ctx e' (fun t => typed vars consts nodes e t /\ Forall (fun e => typed vars consts nodes e t) l)).
    { destruct u.
      - exact (fit_chain ctx true locals vars consts nodes (fun d _ => d) fby_registers fby_registers_grows (fby_pair ctx) e l IHe H d s e' s' E K).
      - exact (fit_chain ctx false locals vars consts nodes (fun d i => d + i) later later_grows (later_pair ctx) e l IHe H d s e' s' E K). }
    eapply infers_same; [exact X|]. cbv beta. intros t. split; [intros [A B]; constructor; auto|inversion 1; auto].
  - assert (X : infers ctx e' (fun t => typed vars consts nodes e t /\ Forall (fun e => typed vars consts nodes e t) l)).
    { destruct u.
      - exact (fit_chain ctx true locals vars consts nodes (fun d _ => d) then_flips then_flips_grows (flip_pair ctx) e l IHe H d s e' s' E K).
      - exact (fit_chain ctx false locals vars consts nodes (fun d _ => d) later later_grows (later_pair ctx) e l IHe H d s e' s' E K). }
    eapply infers_same; [exact X|]. cbv beta. intros t. split; [intros [A B]; constructor; auto|inversion 1; auto].
Qed.
