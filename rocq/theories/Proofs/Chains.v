(** Chains of operators, and the identifiers of compiled nodes. *)
From Coq Require Import String List ZArith Bool Arith Lia Permutation.
From Verif Require Import Model.Base Model.Scalar Model.Value Model.Ast Model.Errors Model.Options Model.Interp Model.Surface
  Model.Translate Model.Clockcheck Model.Pipeline
  Spec.CausalitySpec Spec.StepSpec Spec.CoreSem Spec.SurfaceSem Spec.TranslateSpec Spec.OrderSpec Spec.ChainSpec
  Proofs.OutBasics Proofs.CoreProofs Proofs.CoreNode Proofs.TranslateSem Proofs.TranslateStruct Proofs.NodeWf Proofs.PipelineProofs.
Import ListNotations.
Local Arguments seq : simpl never.

(** ** Left-associative chains *)
Lemma tr_left_fold : forall O (compose : O -> expr -> expr -> expr) u locals l acc d s r s',
  result (tr_left (tr u locals) compose acc l d s) = Some (r, s') ->
  exists es, length es = length l /\
    r = fold_left (fun a p => compose (fst p) a (snd p)) (combine (map fst l) es) acc /\
    forall k op e e', nth_error l k = Some (op, e) -> nth_error es k = Some e' -> translation_of u locals d e e'.
Proof.
  intros O compose u locals. induction l as [|[op e] l IH]; intros acc d s r s' H; cbn [tr_left] in H.
  - inv_out. exists []. split; [auto|]. split; [auto|]. intros [|k]; discriminate.
  - inv_out. destruct (IH _ _ _ _ _ H) as (es & L & R & K).
    exists (e0 :: es). simpl. split; [auto|]. split; [auto|].
    intros [|k] op' e' e'' E1 E2; simpl in *; [|eauto]. inversion E1; inversion E2; subst. exists s, t. auto.
Qed.

Lemma bin_left : forall u locals e l d s r s',
  result (tr u locals (XBin e l) d s) = Some (r, s') ->
  exists e' es, translation_of u locals d e e' /\ length es = length l /\
    r = fold_left (fun a p => EBin (fst p) a (snd p)) (combine (map fst l) es) e' /\
    forall k op x x', nth_error l k = Some (op, x) -> nth_error es k = Some x' -> translation_of u locals d x x'.
Proof.
  intros u locals e l d s r s' H. cbn [tr] in H. inv_out. destruct (tr_left_fold _ _ _ _ _ _ _ _ _ _ H) as (es & L & R & K).
  exists e0, es. split; [exists s, t; auto|auto].
Qed.
Lemma clock_left : forall u locals e l d s r s',
  result (tr u locals (XClock e l) d s) = Some (r, s') ->
  exists e' es, translation_of u locals d e e' /\ length es = length l /\
    r = fold_left (fun a p => EClock (fst p) a (snd p)) (combine (map fst l) es) e' /\
    forall k op x x', nth_error l k = Some (op, x) -> nth_error es k = Some x' -> translation_of u locals d x x'.
Proof.
  intros u locals e l d s r s' H. cbn [tr] in H. inv_out. destruct (tr_left_fold _ _ _ _ _ _ _ _ _ _ H) as (es & L & R & K).
  exists e0, es. split; [exists s, t; auto|auto].
Qed.

Lemma cmp_chain : forall u locals e p1 p2 l d s, result (tr u locals (XCmp e (p1 :: p2 :: l)) d s) = None.
Proof.
  intros u locals e [o1 e1] [o2 e2] l d s. destruct (result (tr u locals (XCmp e ((o1, e1) :: (o2, e2) :: l)) d s)) eqn:E; auto.
  destruct p. cbn [tr] in E. inv_out. 
Qed.

(** ** Chains of [->] in universal mode: nested flips. *)
Lemma flips_shape : forall locals l i d s o s',
  result (tr_right (tr true locals) (fun d _ => d) then_flips i l d s) = Some (o, s') ->
  match o with
  | None => l = []
  | Some r => exists es, nested r es /\ Forall2 (translation_of true locals d) l es
  end.
Proof.
  intros locals. induction l as [|e l IH]; intros i d s o s' H; cbn [tr_right] in H; inv_out; auto.
  specialize (IH _ _ _ _ _ E). destruct o0; cbn in H; inv_out.
  - destruct IH as (es & Ne & F). exists (e0 :: es). split; [constructor; auto|]. constructor; auto. unfold translation_of; eauto.
  - subst. exists [e0]. split; [constructor|]. constructor; auto. unfold translation_of; eauto.
Qed.

Lemma then_flips_shape : forall locals e l d s r s',
  result (tr true locals (XThen e l) d s) = Some (r, s') ->
  exists es, nested r es /\ Forall2 (translation_of true locals d) (e :: l) es.
Proof.
  intros locals e l d s r s' H. cbn [tr] in H. inv_out. apply flips_shape in E. destruct o; inv_out.
  - destruct E as (es & Ne & F). exists (e0 :: es). split; [constructor; auto|].
    constructor; auto. unfold translation_of; eauto.
  - subst. exists [r]. split; [constructor|]. constructor; auto. unfold translation_of; eauto.
Qed.

Section Flips.
  Variable mode : ovf.
  Variable glob : ident -> option scalar.
  Variable rho : nat -> ident -> option nillable.
  Variable kappa : nat -> nat -> option val.
  Variable calls : nat -> list val -> val -> Prop.
  Variable nilouts : nat -> val -> Prop.
  Notation cs := (csem mode glob rho kappa calls nilouts).

  (** Once its operands but the last are present, a nested chain is its last operand. *)
  Lemma nested_last : forall r es, nested r es -> forall lo T0 T m v, lo <= T0 -> T0 < T ->
    last es m = m -> es <> [] ->
    (forall e k w, In e (removelast es) -> k = T0 \/ k = T -> cs lo e k w -> first_is_nil w = false) ->
    (forall e k, In e (removelast es) -> k = T0 \/ k = T -> exists w, cs lo e k w) ->
    cs lo r T v <-> cs lo m T v.
  Proof.
    induction 1 as [e|id e r es Ne IH]; intros lo T0 T m v L0 L1 La N P X.
    - simpl in La. subst. tauto.
    - assert (es <> []) by (inversion Ne; discriminate).
      assert (E1 : removelast (e :: es) = e :: removelast es) by (destruct es; [congruence|reflexivity]).
      rewrite E1 in P, X.
      assert (L : cs lo r T v <-> cs lo m T v).
      { apply (IH lo T0 T); auto; intros; try (destruct es; [congruence|exact La]); [eapply P|eapply X]; simpl; eauto. }
      rewrite <- L. split.
      + intros H0. inversion H0; subst; auto.
        * exfalso. rewrite (P e T va) in *; simpl; auto. discriminate.
        * exfalso. match goal with K : forall k, _ -> _ -> _ |- _ => destruct (K T0 L0 L1) as (w & W1 & W2) end.
          rewrite (P e T0 w) in W2; simpl; auto. discriminate.
      + intros H0. destruct (X e T) as (w & W); simpl; auto. destruct (X e T0) as (w0 & W0); simpl; auto.
        eapply cs_flip_later; [exact W| |exact L0|exact L1|exact W0| |exact H0]; [eapply (P e T w)|eapply (P e T0 w0)]; simpl; auto.
  Qed.

  Lemma nested_two : forall id id' e r es m lo T v, nested r es -> es <> [] -> last es m = m ->
    (forall k x, k <= T -> In x (e :: removelast es) -> exists w, cs lo x k w) ->
    (forall k x w0 w, k <= T -> In x (removelast es) -> cs lo e k w0 -> first_is_nil w0 = false -> cs lo x k w -> first_is_nil w = false) ->
    cs lo (EFlip id e r) T v <-> cs lo (EFlip id' e m) T v.
  Proof.
    intros id id' e r es m lo T v Ne N La X P.
    assert (Q : forall k w w0, lo <= k -> k < T -> cs lo e k w -> first_is_nil w = false -> cs lo e T w0 -> first_is_nil w0 = false ->
      cs lo r T v <-> cs lo m T v).
    { intros k w w0 Lk Tk W F W0 F0. eapply (nested_last r es Ne lo k T m v); auto.
      - intros x k' w' I [->| ->] W'; [apply (P k x w w')|apply (P T x w0 w')]; auto; lia.
      - intros x k' I [->| ->]; apply X; simpl; auto; lia. }
    split; intros H; inversion H; subst;
      try (econstructor; eauto; fail).
    - eapply cs_flip_later; eauto. apply (Q k w va); auto.
    - eapply cs_flip_later; eauto. apply (Q k w va); auto.
  Qed.
End Flips.

(** ** Identifiers *)
Lemma count_one : forall (l : list nat) r n, Permutation l (seq 0 n) -> r < n -> length (filter (Nat.eqb r) l) = 1.
Proof.
  intros l r n P L.
  assert (E : forall a b, Permutation a b -> length (filter (Nat.eqb r) a) = length (filter (Nat.eqb r) b)).
  { induction 1; simpl; auto; try (destruct (Nat.eqb r x); simpl; auto); try (destruct (Nat.eqb r y); simpl; auto); congruence. }
  rewrite (E _ _ P). clear -L.
  assert (G : forall q k, length (filter (Nat.eqb r) (seq k q)) = if (k <=? r) && (r <? k + q) then 1 else 0).
  { clear L. induction q as [|m IH]; intros k; [replace (seq k 0) with (@nil nat) by reflexivity; simpl; destruct (Nat.leb_spec k r), (Nat.ltb_spec r (k + 0)); simpl; auto; lia|].
    replace (filter (Nat.eqb r) (seq k (S m))) with (if Nat.eqb r k then k :: filter (Nat.eqb r) (seq (S k) m) else filter (Nat.eqb r) (seq (S k) m)) by reflexivity.
    destruct (Nat.eqb_spec r k);
    [change (length (k :: filter (Nat.eqb r) (seq (S k) m))) with (S (length (filter (Nat.eqb r) (seq (S k) m))))|]; rewrite IH;
    destruct (Nat.leb_spec (S k) r), (Nat.ltb_spec r (S k + m)), (Nat.leb_spec k r), (Nat.ltb_spec r (k + S m)); simpl; auto; lia. }
  rewrite G. destruct (Nat.leb_spec 0 r), (Nat.ltb_spec r (0 + n)); simpl; auto; lia.
Qed.
Lemma init_count_flat : forall r l, init_count r l = length (filter (Nat.eqb r) (flat_map stmt_inits l)).
Proof.
  intros r. induction l as [|s l IH]; auto. unfold init_count in *. destruct s; simpl; auto.
  destruct (Nat.eqb r id); simpl; auto.
Qed.
Lemma update_count_flat : forall r l, update_count r l = length (filter (Nat.eqb r) (flat_map stmt_updates l)).
Proof.
  intros r. induction l as [|s l IH]; auto. unfold update_count in *. destruct s; simpl; auto.
  destruct (Nat.eqb r id); simpl; auto.
Qed.

Lemma stmt_exprs_computed : forall s, stmt_exprs s = computed s.
Proof. destruct s; reflexivity. Qed.

Theorem compiled_ids : forall p l nd, result (pipeline p) = Some l -> In nd (nodes_of l) ->
  let es := flat_map computed (n_stmts nd) in
  Permutation (flat_map calls_of es) (seq 0 (length (n_blocks nd))) /\
  Permutation (flat_map flips_of es) (seq 0 (n_flips nd)) /\
  Permutation (map fst (flat_map reads_of es)) (seq 0 (length (n_regs nd))) /\
  (forall r, r < length (n_regs nd) -> init_count r (n_stmts nd) = 1 /\ update_count r (n_stmts nd) = 1) /\
  (forall r i n, In (r, (i, n)) (flat_map reads_of es) ->
     In (SUpdate r n) (n_stmts nd) /\ exists c, In (SInit r i (Some c)) (n_stmts nd)).
Proof.
  intros p l nd H I. destruct (pipeline_nodes _ _ H _ I) as (o & O).
  destruct O as (a & sn & d & _ & _ & _ & C). apply compiled_passed in C. destruct C as (nd0 & stmts & Pa).
  destruct Pa as [T C P K Kc En Ei Eo El Eb Er Ef Nv].
  assert (NoC : forall s, In s stmts -> forall id v c, s = SInit id v c -> c = None).
  { intros s I' id v c ->. eapply translated_init_none; eauto. eapply Permutation_in; eauto. }
  assert (Xe : forall m, flat_map computed m = flat_map stmt_exprs m) by (induction m as [|s m IHm]; simpl; auto; rewrite IHm, stmt_exprs_computed; auto).
  cbn zeta. rewrite Xe.
  assert (Flat : forall {A} (f : expr -> list A), (forall k, f (forge_as_expr k) = []) ->
     Permutation (flat_map f (flat_map stmt_exprs (n_stmts nd))) (flat_map f (flat_map stmt_exprs (n_stmts nd0)))).
  { intros A f Hf. rewrite (clocked_flat2 f Hf _ _ K NoC). apply Permutation_flat_map, Permutation_flat_map; auto. }
  assert (Flat2 : forall {A} (f : stmt -> list A), (forall s s', clocked_as s s' -> f s' = f s) ->
     Permutation (flat_map f (n_stmts nd)) (flat_map f (n_stmts nd0))).
  { intros A f Hf. rewrite (clocked_flat f Hf _ _ K). apply Permutation_flat_map; auto. }
  assert (Ci : forall s s', clocked_as s s' -> stmt_inits s' = stmt_inits s) by (intros s s' Hx; inversion Hx; auto).
  assert (Cu : forall s s', clocked_as s s' -> stmt_updates s' = stmt_updates s) by (intros s s' Hx; inversion Hx; auto).
  assert (Fc : forall k, calls_of (forge_as_expr k) = []) by (intros; apply forge_pure).
  assert (Ff : forall k, flips_of (forge_as_expr k) = []) by (intros; apply forge_pure).
  assert (Fr : forall k, reads_of (forge_as_expr k) = []) by (intros; apply forge_pure).
  assert (Lr : length (n_regs nd) = length (n_regs nd0)).
  { assert (X : Permutation (flat_map stmt_inits (n_stmts nd)) (seq 0 (length (n_regs nd0)))).
    { eapply perm_trans; [apply Flat2; auto|apply (td_inits _ _ _ T)]. }
    rewrite ?Er; auto. }
  split; [rewrite Eb; eapply perm_trans; [apply Flat; auto|apply (td_calls _ _ _ T)]|].
  split; [rewrite Ef; eapply perm_trans; [apply Flat; auto|apply (td_flips _ _ _ T)]|].
  split; [rewrite Lr; eapply perm_trans; [apply Permutation_map, Flat; auto|apply (td_reads _ _ _ T)]|].
  split.
  - intros r L. rewrite Lr in L. rewrite init_count_flat, update_count_flat. split; eapply count_one; eauto.
    + eapply perm_trans; [apply Flat2; auto|apply (td_inits _ _ _ T)].
    + eapply perm_trans; [apply Flat2; auto|apply (td_updates _ _ _ T)].
  - intros r i n J. apply (Permutation_in _ (Flat _ reads_of Fr)) in J. destruct (td_fetch _ _ _ T _ _ _ J) as [J1 J2].
    apply (Permutation_in _ (Permutation_sym P)) in J1, J2. 
    apply In_nth_error in J1. destruct J1 as (k1 & J1). destruct (forall2_nth_l _ _ _ K _ _ J1) as (s1 & X1 & Y1).
    apply In_nth_error in J2. destruct J2 as (k2 & J2). destruct (forall2_nth_l _ _ _ K _ _ J2) as (s2 & X2 & Y2).
    split; [inversion Y1; subst; eapply nth_error_In; eauto|].
    inversion Y2; subst; [discriminate|]. eexists. eapply nth_error_In; eauto.
Qed.

(** ** Chains of the default mode *)
Lemma position_nat : forall m T, position m (Z.of_nat T) = Nat.min T m.
Proof. intros. unfold position. lia. Qed.

Section Default.
  Variable mode : ovf.
  Variable glob : ident -> option scalar.
  Variable locals : list ident.
  Variable rho : nat -> ident -> option nillable.
  Variable kappa : nat -> nat -> option val.
  Variable F : ident -> list val -> val -> Prop.
  Variable N : ident -> val -> Prop.
  Notation cs blocks := (csem mode glob rho kappa
      (fun id args v => exists g, nth_error blocks id = Some g /\ F g args v)
      (fun id v => exists g, nth_error blocks id = Some g /\ N g v)).
  Notation sm := (sem mode glob locals rho F N).

  Lemma agree_blocks : forall blocks, agree (fun id args v => exists g, nth_error blocks id = Some g /\ F g args v)
      (fun id v => exists g, nth_error blocks id = Some g /\ N g v) F N blocks.
  Proof.
    intros blocks id f E. split; intros; (split; [intros (g & E' & H)|intros H]); try (rewrite E in E'; inversion E'; subst; auto); eauto.
  Qed.

  Lemma pushed_pre : forall e d s e' s', result (tr false locals e d s) = Some (e', s') ->
    forall T v, cs (t_blocks s') 0 e' T v <-> sm e (Z.of_nat T - Z.of_nat d) v.
  Proof. intros. eapply preservation; eauto; [apply agree_blocks|lia]. Qed.

  Lemma then_default : forall e l s r s', result (tr false locals (XThen e l) 0 s) = Some (r, s') ->
    forall T v, cs (t_blocks s') 0 r T v <->
      exists ek, nth_error (e :: l) (Nat.min T (length l)) = Some ek /\ sm ek (Z.of_nat T) v.
  Proof.
    intros e l s r s' H T v. rewrite (pushed_pre _ _ _ _ _ H). replace (Z.of_nat T - Z.of_nat 0)%Z with (Z.of_nat T) by lia.
    rewrite sem_then_iff, position_nat. split; intros (x & A & B); eauto.
  Qed.

  Lemma sem_pre_iter : forall k e t v, sm (Nat.iter k XPre e) t v <-> sm e (t - Z.of_nat k) v.
  Proof.
    induction k as [|k IH]; intros e t v; cbn [Nat.iter].
    - replace (t - Z.of_nat 0)%Z with t by lia. tauto.
    - change (Nat.iter (S k) XPre e) with (XPre (Nat.iter k XPre e)).
      rewrite sem_pre_iff, IH. replace (t - 1 - Z.of_nat k)%Z with (t - Z.of_nat (S k))%Z by lia. tauto.
  Qed.

  Lemma fby_default : forall e l s r s', result (tr false locals (XFby e l) 0 s) = Some (r, s') ->
    forall T v, cs (t_blocks s') 0 r T v <->
      exists ek, nth_error (e :: l) (Nat.min T (length l)) = Some ek /\
        sm (Nat.iter (Nat.min T (length l)) XPre ek) (Z.of_nat T) v.
  Proof.
    intros e l s r s' H T v. rewrite (pushed_pre _ _ _ _ _ H). replace (Z.of_nat T - Z.of_nat 0)%Z with (Z.of_nat T) by lia.
    rewrite sem_fby_iff, position_nat. split; intros (x & A & B); exists x; split; auto; apply sem_pre_iter; auto.
  Qed.
End Default.

Lemma then_universal : forall locals e l m d s r s',
  result (tr true locals (XThen e (l ++ [m])) d s) = Some (r, s') ->
  exists e' l' m', translation_of true locals d e e' /\ Forall2 (translation_of true locals d) l l' /\
    translation_of true locals d m m' /\
    forall mode glob rho kappa calls nilouts id T v,
    let value := csem mode glob rho kappa calls nilouts 0 in
    (forall k x, k <= T -> In x (e' :: l') -> exists w, value x k w) ->
    (forall k x w0 w, k <= T -> In x l' -> value e' k w0 -> first_is_nil w0 = false -> value x k w -> first_is_nil w = false) ->
    value r T v <-> value (EFlip id e' m') T v.
Proof.
  intros locals e l m d s r s' H. apply then_flips_shape in H. destruct H as (es & Ne & Fo).
  inversion Fo as [|? e' ? es' He Fl]; subst. apply Forall2_app_inv_l in Fl. destruct Fl as (l' & m1 & F1 & F2 & ->).
  inversion F2 as [|? m' ? ? Hm F3]; subst. inversion F3; subst. exists e', l', m'. split; [auto|]. split; [auto|]. split; [auto|].
  intros mode glob rho kappa calls nilouts id T v value X P. unfold value.
  inversion Ne as [|id0 ? r0 ? Ne']; subst; [destruct l'; discriminate|].
  eapply nested_two; eauto.
  - destruct l'; discriminate.
  - apply last_last.
  - rewrite removelast_last. exact X.
  - rewrite removelast_last. exact P.
Qed.
