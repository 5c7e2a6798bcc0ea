(** The compiler does not abort on programs that take the precautions of
    [CrashSpec]. *)
From Coq Require Import String List ZArith Bool Arith Lia Permutation.
From Verif Require Import Model.Base Model.Scalar Model.Value Model.Ast Model.Errors Model.Interp Model.Options Model.Surface Model.Translate
  Model.Graph Model.Causality Model.Typecheck Model.Clockcheck Model.Positivity Model.Pipeline
  Spec.TranslateSpec Spec.GraphSpec Spec.TypeSpec Spec.AttrSpec Spec.RangeSpec Spec.CrashSpec
  Proofs.OutBasics Proofs.AstInd Proofs.GraphProofs Proofs.CausalityProofs Proofs.CoreProofs Proofs.TypeEval Proofs.Unify Proofs.TranslateStruct
  Proofs.DeepIds Proofs.NodeWf Proofs.PipelineProofs Proofs.Attrs Proofs.FairPipeline.
Import ListNotations.
Local Open Scope string_scope.
Local Open Scope list_scope.

Definition safe {A} (x : out A) : Prop := x <> Abort.
Lemma safe_bind : forall {A B} (x : out A) (f : A -> out B), safe x -> (forall a, result x = Some a -> safe (f a)) -> safe (obind x f).
Proof.
  intros A B [[a|] es ws|] f H K E; cbn in *; try discriminate; [|apply H; auto].
  pose proof (K a eq_refl) as Q. destruct (f a); [discriminate|]. apply Q. auto.
Qed.
Lemma safe_attempt : forall {A} (x : out A), safe x -> safe (attempt x).
Proof. intros A [r es ws|] H E; [discriminate|]. apply H. auto. Qed.
Lemma safe_omap : forall {A B} (f : A -> out B) l, (forall a, In a l -> safe (f a)) -> safe (omap f l).
Proof.
  intros A B f l. induction l as [|a l IH]; intros H; cbn [omap]; [discriminate|].
  apply safe_bind; [apply H; cbn; auto|]. intros b _. apply safe_bind; [apply IH; intros; apply H; cbn; auto|discriminate].
Qed.
Lemma safe_each : forall {A} (f : A -> out unit) l, (forall a, In a l -> safe (f a)) -> safe (each f l).
Proof.
  intros A f l. induction l as [|a l IH]; intros H; cbn [each]; [discriminate|].
  apply safe_bind; [apply H; cbn; auto|]. intros b _. apply IH. intros; apply H; cbn; auto.
Qed.

Ltac go := repeat first
  [ assumption | discriminate
  | match goal with
    | |- safe (obind _ _) => apply safe_bind; [|let a := fresh "a" in let E := fresh "E" in intros a E; repeat match goal with p : (_ * _)%type |- _ => destruct p end]
    | |- safe (attempt _) => apply safe_attempt
    | |- safe (match ?x with _ => _ end) => destruct x eqn:?
    end ].

(** ** Attributes *)
Lemma safe_check : forall l a, safe (check_generics a l).
Proof. induction l as [|t l IH]; intros a; cbn [check_generics]; go. apply IH. Qed.

Lemma safe_with_attr : forall d a,
  (forall n, a_action a = "main" \/ a_action a = "test" -> a_targets a = [ALInt n] -> (0 <= n <= 2 ^ 64 - 1)%Z) -> safe (with_attr d a).
Proof.
  intros [tr ex pu ma te al do ti ge un] [ac ps ts] H. unfold with_attr. cbn [a_action a_params a_targets] in *.
  assert (D : forall A (o : setopt A), safe (duplicate o)) by (intros A []; discriminate).
  assert (C : forall A (o : setopt A), safe (conflicting o)) by (intros A []; discriminate).
  assert (K : forall l, safe (check_generics [] l)) by (intros; apply safe_check).
  assert (U : forall i, (0 <= i <= 2 ^ 64 - 1)%Z -> is_usize i = true) by (intros i L; unfold is_usize; lia).
  repeat match goal with |- safe (if String.eqb ?x ?y then _ else _) => destruct (String.eqb_spec x y); [subst|] end;
    go; auto; try apply D; try apply C; try apply K.
  all: subst; exfalso; match goal with E : is_usize ?i = false |- _ => rewrite U in E; [discriminate|] end; eapply H; eauto.
Qed.

Lemma safe_with_attrs : forall l d, small_counts l -> safe (with_attrs d l).
Proof.
  induction l as [|a l IH]; intros d H; cbn [with_attrs]; [discriminate|].
  apply safe_bind; [apply safe_with_attr; intros n; apply H; cbn; auto|]. intros d' _. apply IH. intros b n J. apply H. cbn. auto.
Qed.

(** ** Translation *)
Definition fits (e : sexpr) : Prop := forall z, In z (literals e) -> (- 2 ^ 63 <= z <= 2 ^ 63 - 1)%Z.

Lemma safe_tr : forall u vars e d s, fits e -> safe (tr u vars e d s).
Proof.
  intros u vars. pose (P := fun e => forall d s, fits e -> safe (tr u vars e d s)).
  assert (Elems : forall l, Forall P l -> forall d s, (forall e, In e l -> fits e) -> safe (tr_elems (tr u vars) l d s)).
  { induction 1 as [|e l He _ IH]; intros d s H; cbn [tr_elems]; [discriminate|]. go; [apply He, H; cbn; auto|apply IH; intros; apply H; cbn; auto]. }
  assert (Left : forall O (compose : O -> expr -> expr -> expr) l, Forall (fun p => P (snd p)) l -> forall acc d s,
    (forall p, In p l -> fits (snd p)) -> safe (tr_left (tr u vars) compose acc l d s)).
  { intros O compose. induction 1 as [|[o e] l He _ IH]; intros acc d s H; cbn [tr_left]; [discriminate|].
    go; [apply He, (H (o, e)); cbn; auto|apply IH; intros; apply H; cbn; auto]. }
  assert (Right : forall bump compose l, Forall P l -> forall i d s, (forall e, In e l -> fits e) -> safe (tr_right (tr u vars) bump compose i l d s)).
  { intros bump compose. induction 1 as [|e l He _ IH]; intros i d s H; cbn [tr_right]; [discriminate|].
    go; [apply IH; intros; apply H; cbn; auto|apply He, H; cbn; auto]. }
  assert (Sub : forall l e, In e l -> fits (XParen l true) -> fits e).
  { intros l e J H z Z. apply H. cbn. apply in_flat_map. eauto. }
  assert (SubP : forall O (l : list (O * sexpr)) p, In p l -> (forall z, In z (flat_map (fun p => literals (snd p)) l) -> (- 2 ^ 63 <= z <= 2 ^ 63 - 1)%Z) -> fits (snd p)).
  { intros O l p J H z Z. apply H. apply in_flat_map. eauto. }
  intros e. change (P e). induction e using sexpr_ind'; intros d s F; cbn [tr].
  - apply safe_bind; [|discriminate]. destruct l as [z| | |]; cbn [tr_lit]; try discriminate.
    assert (L : in_i64 z = true) by (assert (B : (- 2 ^ 63 <= z <= 2 ^ 63 - 1)%Z) by (apply F; cbn; auto); unfold in_i64, i64_min, i64_max; lia). rewrite L. discriminate.
  - discriminate.
  - go. apply Elems; auto. intros e J. eapply Sub; eauto.
  - go. apply Elems; auto. intros e J. eapply Sub; eauto.
  - go. apply IHe. auto.
  - go. apply IHe. auto.
  - destruct u; go; apply IHe; auto.
  - go; [apply IHe1|apply IHe2|apply IHe3]; intros z Z; apply F; cbn; rewrite !in_app_iff; auto.
  - go; [apply IHe1|apply IHe2|apply IHe3]; intros z Z; apply F; cbn; rewrite !in_app_iff; auto.
  - go; [apply IHe; intros z Z; apply F; cbn; rewrite !in_app_iff; auto|]. apply Left; auto.
    intros p J. eapply SubP; eauto. intros z Z. apply F. cbn. rewrite in_app_iff. auto.
  - assert (G : forall p, In p l -> P (snd p) /\ fits (snd p)).
    { intros p J. split; [rewrite Forall_forall in H; auto|]. eapply SubP; eauto. intros z Z. apply F. cbn. rewrite in_app_iff. auto. }
    apply safe_bind; [apply IHe; intros z Z; apply F; cbn; rewrite !in_app_iff; auto|]. intros (x, s1) _.
    destruct l as [|[c y] [|[c' y'] l]]; [discriminate|..].
    + destruct (G (c, y)) as [Py Fy]; [cbn; auto|]. go. apply Py. auto.
    + destruct (G (c, y)) as [Py Fy]; [cbn; auto|]. destruct (G (c', y')) as [Py' Fy']; [cbn; auto|]. go; [apply Py|apply Py']; auto.
  - go; [apply IHe; intros z Z; apply F; cbn; rewrite !in_app_iff; auto|]. apply Left; auto.
    intros p J. eapply SubP; eauto. intros z Z. apply F. cbn. rewrite in_app_iff. auto.
  - go; [apply Right; auto; intros x J z Z; apply F; cbn; apply in_app_iff; right; apply in_flat_map; eauto|].
    apply IHe. intros z Z. apply F. cbn. apply in_app_iff. auto.
  - go; [apply Right; auto; intros x J z Z; apply F; cbn; apply in_app_iff; right; apply in_flat_map; eauto|].
    apply IHe. intros z Z. apply F. cbn. apply in_app_iff. auto.
Qed.

Lemma safe_tr_stmts : forall u vars l s, (forall i, In i l -> fits match i with XDef _ e | XAssert e => e end) -> safe (tr_stmts u vars l s).
Proof.
  intros u vars. induction l as [|i l IH]; intros s H; cbn [tr_stmts]; [discriminate|].
  apply safe_bind; [|intros; apply IH; intros; apply H; cbn; auto].
  pose proof (H i (or_introl eq_refl)) as F. destruct i; cbn [tr_stmt]; go; apply safe_tr; auto.
Qed.

Lemma safe_skip : forall {A} (o : setopt A), safe (skip o).
Proof. intros A []; discriminate. Qed.

Lemma safe_tr_attrdecl : forall a, small_literals (snd a) -> small_counts (fst a) -> safe (tr_attrdecl a).
Proof.
  intros [a d] L C. cbn [fst snd] in *. unfold tr_attrdecl. apply safe_bind; [apply safe_with_attrs; auto|]. intros o _. cbn [snd].
  destruct d as [x t e|sn|x t|x i o']; cbn [tr_decl]; unfold for_const, for_node, for_ext_const, for_ext_node; go; try apply safe_skip.
  - apply safe_tr. intros z. apply L. cbn. auto.
  - unfold tr_node. go. apply safe_tr_stmts. intros i J z Z. eapply L; eauto. cbn. apply in_map_iff. exists i. auto.
Qed.

(** The blocks of a node are those it calls. *)
Lemma tr_blocks : forall u vars e d s e' s', result (tr u vars e d s) = Some (e', s') ->
  forall f, In f (t_blocks s') -> In f (t_blocks s) \/ In f (callees e).
Proof.
  intros u vars. pose (P := fun e => forall d s e' s', result (tr u vars e d s) = Some (e', s') ->
    forall f, In f (t_blocks s') -> In f (t_blocks s) \/ In f (callees e)).
  assert (Elems : forall l, Forall P l -> forall d s l' s', result (tr_elems (tr u vars) l d s) = Some (l', s') ->
    forall f, In f (t_blocks s') -> In f (t_blocks s) \/ In f (flat_map callees l)).
  { induction 1 as [|e l He _ IH]; intros d s l' s' H f J; cbn [tr_elems] in H.
    - inv_out. auto.
    - apply obind_some in H. destruct H as ((e1, s1) & E1 & H). apply obind_some in H. destruct H as ((l1, s2) & E2 & H). inv_out.
      cbn. rewrite in_app_iff. destruct (IH _ _ _ _ E2 _ J) as [K|K]; auto. destruct (He _ _ _ _ E1 _ K); auto. }
  assert (Left : forall O (compose : O -> expr -> expr -> expr) l, Forall (fun p => P (snd p)) l -> forall acc d s e' s',
    result (tr_left (tr u vars) compose acc l d s) = Some (e', s') ->
    forall f, In f (t_blocks s') -> In f (t_blocks s) \/ In f (flat_map (fun p => callees (snd p)) l)).
  { intros O compose. induction 1 as [|[o e] l He _ IH]; intros acc d s e' s' H f J; cbn [tr_left] in H.
    - inv_out. auto.
    - apply obind_some in H. destruct H as ((e1, s1) & E1 & H).
      cbn. rewrite in_app_iff. destruct (IH _ _ _ _ _ H _ J) as [K|K]; auto. destruct (He _ _ _ _ E1 _ K); auto. }
  assert (Right : forall bump (compose : nat -> nat -> expr -> expr -> tst -> expr * tst) l, (forall d i a b s, t_blocks (snd (compose d i a b s)) = t_blocks s) ->
    Forall P l -> forall i d s o s', result (tr_right (tr u vars) bump compose i l d s) = Some (o, s') ->
    forall f, In f (t_blocks s') -> In f (t_blocks s) \/ In f (flat_map callees l)).
  { intros bump compose l Hc. induction 1 as [|e l He _ IH]; intros i d s o s' H f J; cbn [tr_right] in H.
    - inv_out. auto.
    - apply obind_some in H. destruct H as ((acc, s1) & E1 & H). apply obind_some in H. destruct H as ((e1, s2) & E2 & H).
      assert (B : t_blocks s' = t_blocks s2).
      { destruct acc as [after|]; [|inv_out; auto]. destruct (compose d i e1 after s2) as [r s3] eqn:Q. inv_out.
        change s' with (snd (r, s')). rewrite <- Q. auto. }
      rewrite B in J. cbn. rewrite in_app_iff. destruct (He _ _ _ _ E2 _ J) as [K|K]; auto. destruct (IH _ _ _ _ _ E1 _ K); auto. }
  assert (Three : forall a b c, P a -> P b -> P c -> forall d s e1 s1 e2 s2 e3 s3, result (tr u vars a d s) = Some (e1, s1) ->
    result (tr u vars b d s1) = Some (e2, s2) -> result (tr u vars c d s2) = Some (e3, s3) ->
    forall f, In f (t_blocks s3) -> In f (t_blocks s) \/ In f (callees a ++ callees b ++ callees c)).
  { intros a b c Pa Pb Pc d s e1 s1 e2 s2 e3 s3 E1 E2 E3 f J. rewrite !in_app_iff.
    destruct (Pc _ _ _ _ E3 _ J) as [K|K]; auto. destruct (Pb _ _ _ _ E2 _ K) as [K2|K2]; auto. destruct (Pa _ _ _ _ E1 _ K2); auto. }
  assert (Cf : forall (c : bool) d i a b s, t_blocks (snd ((if c then fby_registers else later) d i a b s)) = t_blocks s) by (intros []; reflexivity).
  assert (Ct : forall (c : bool) d i a b s, t_blocks (snd ((if c then then_flips else later) d i a b s)) = t_blocks s) by (intros []; reflexivity).
  intros e. change (P e). induction e using sexpr_ind'; intros d s e' s' R g J; cbn [tr] in R; cbn [callees].
  - apply obind_some in R. destruct R as (x & _ & R). inv_out. auto.
  - inv_out. auto.
  - apply obind_some in R. destruct R as ((es, s1) & E1 & R). inv_out. eauto.
  - apply obind_some in R. destruct R as ((es, s1) & E1 & R). inv_out. cbn [add_block t_blocks] in J. rewrite in_app_iff in J.
    cbn. destruct J as [J|[<-|[]]]; auto. destruct (Elems _ H _ _ _ _ E1 _ J); auto.
  - apply obind_some in R. destruct R as ((es, s1) & E1 & R). inv_out. eapply IHe; eauto.
  - apply obind_some in R. destruct R as ((es, s1) & E1 & R). inv_out. eapply IHe; eauto.
  - destruct u; apply obind_some in R; destruct R as ((es, s1) & E1 & R); inv_out; eapply IHe in E1; eauto.
  - apply obind_some in R. destruct R as ((x1, s1) & E1 & R). apply obind_some in R. destruct R as ((x2, s2) & E2 & R).
    apply obind_some in R. destruct R as ((x3, s3) & E3 & R). inv_out. eapply (Three e1 e2 e3); eauto.
  - apply obind_some in R. destruct R as ((x1, s1) & E1 & R). apply obind_some in R. destruct R as ((x2, s2) & E2 & R).
    apply obind_some in R. destruct R as ((x3, s3) & E3 & R). inv_out. eapply (Three e1 e2 e3); eauto.
  - apply obind_some in R. destruct R as ((x1, s1) & E1 & R). rewrite in_app_iff. destruct (Left _ _ _ H _ _ _ _ _ R _ J) as [K|K]; auto.
    destruct (IHe _ _ _ _ E1 _ K); auto.
  - apply obind_some in R. destruct R as ((x1, s1) & E1 & R). rewrite in_app_iff.
    destruct l as [|[c y] [|[c' y'] l]].
    + inv_out. destruct (IHe _ _ _ _ E1 _ J); auto.
    + apply obind_some in R. destruct R as ((x2, s2) & E2 & R). inv_out. inversion H; subst. cbn. rewrite app_nil_r.
      destruct (H2 _ _ _ _ E2 _ J) as [K|K]; auto. destruct (IHe _ _ _ _ E1 _ K); auto.
    + apply obind_some in R. destruct R as ((x2, s2) & E2 & R). apply obind_some in R. destruct R as ((x3, s3) & E3 & R). inv_out.
  - apply obind_some in R. destruct R as ((x1, s1) & E1 & R). rewrite in_app_iff. destruct (Left _ _ _ H _ _ _ _ _ R _ J) as [K|K]; auto.
    destruct (IHe _ _ _ _ E1 _ K); auto.
  - apply obind_some in R. destruct R as ((acc, s1) & E1 & R). apply obind_some in R. destruct R as ((x, s2) & E2 & R). rewrite in_app_iff.
    assert (B : t_blocks s' = t_blocks s2).
    { destruct acc as [after|]; [|inv_out; auto]. cbn in R. inversion R as [Q]. rewrite <- (Cf u d 0 x after s2). rewrite Q. reflexivity. }
    rewrite B in J. destruct (IHe _ _ _ _ E2 _ J) as [K|K]; auto. destruct (Right _ _ _ (Cf u) H _ _ _ _ _ E1 _ K); auto.
  - apply obind_some in R. destruct R as ((acc, s1) & E1 & R). apply obind_some in R. destruct R as ((x, s2) & E2 & R). rewrite in_app_iff.
    assert (B : t_blocks s' = t_blocks s2).
    { destruct acc as [after|]; [|inv_out; auto]. cbn in R. inversion R as [Q]. rewrite <- (Ct u d 0 x after s2). rewrite Q. reflexivity. }
    rewrite B in J. destruct (IHe _ _ _ _ E2 _ J) as [K|K]; auto. destruct (Right _ _ _ (Ct u) H _ _ _ _ _ E1 _ K); auto.
Qed.

Lemma tr_node_blocks : forall o sn nd f, result (tr_node o sn) = Some nd -> In f (n_blocks nd) ->
  exists e, In e (expressions (XNode sn)) /\ In f (callees e).
Proof.
  intros o sn nd f H J. unfold tr_node in H. inv_out. rename r into s. cbn [n_blocks] in J. cbn [expressions].
  assert (G : forall l s s', result (tr_stmts (o_universal o) (map v_name (tr_decls (s_inputs sn) ++ tr_decls (s_outputs sn) ++ tr_decls (s_locals sn))) l s) = Some s' ->
    In f (t_blocks s') -> In f (t_blocks s) \/ exists i, In i l /\ In f (callees match i with XDef _ e | XAssert e => e end)).
  { clear. induction l as [|i l IH]; intros s s' H J; cbn [tr_stmts] in H; [inv_out; auto|].
    apply obind_some in H. destruct H as (s1 & E & H). destruct (IH _ _ H J) as [K|(i' & I & K)]; [|right; exists i'; cbn; auto].
    destruct i as [t e|e]; cbn [tr_stmt] in E; apply obind_some in E; destruct E as ((e', s2) & E & F); inv_out;
      cbn [add_stmt t_blocks] in K; (destruct (tr_blocks _ _ _ _ _ _ _ E _ K); [auto|right; eexists; split; [left; reflexivity|auto]]). }
  destruct (G _ _ _ E J) as [[]|(i & I & K)]. exists match i with XDef _ e | XAssert e => e end. split; auto. apply in_map_iff. exists i. auto.
Qed.

(** ** Scheduling *)
Lemma no_graph_abort : forall l, prog_causality l <> inr GraphAbort.
Proof.
  intros l H. unfold prog_causality in H. destruct (decls_causality l) as [l1|e] eqn:D.
  - pose proof (schedule_reasons reference_eqb reference_eqb_spec decl_provides decl_requires [] l1 []) as R. rewrite H in R. exact R.
  - inversion H; subst. clear H. revert D. induction l as [|d l IH]; cbn [decls_causality]; [discriminate|].
    destruct (decl_causality d) as [d'|e] eqn:E.
    + destruct (decls_causality l); [discriminate|]. intros Q. inversion Q; subst. auto.
    + intros Q. inversion Q; subst. clear IH Q. destruct d; cbn [decl_causality] in E; try discriminate.
      destruct (node_causality nd) as [nd'|e] eqn:N; inversion E; subst. unfold node_causality in N.
      pose proof (schedule_reasons reference_eqb reference_eqb_spec stmt_provides stmt_requires
        (map (fun x => RLocal (v_name x)) (n_inputs nd)) (n_stmts nd) (map (fun x => RLocal (v_name x)) (n_locals nd ++ n_outputs nd))) as R.
      destruct (schedule _ _ _ _ _ _ _ _) as [|e]; inversion N; subst. exact R.
Qed.
Lemma safe_causality : forall l, safe (causality l).
Proof.
  intros l H. unfold causality in H. pose proof (no_graph_abort l) as N. destruct (prog_causality l) as [|[]]; try discriminate. apply N. auto.
Qed.
Lemma causality_nodup : forall l l', result (causality l) = Some l' -> NoDup (flat_map decl_provides l').
Proof.
  intros l l' H. apply causality_some in H. destruct H as (l1 & F & P & H). unfold prog_causality in H.
  destruct (decls_causality l) as [l2|] eqn:D; [|discriminate].
  assert (X : single_assignment decl_provides l2 []).
  { apply (proj1 (schedule_iff reference_eqb reference_eqb_spec decl_provides decl_requires [] l2 [])). eauto. }
  assert (E : l2 = l1).
  { apply decls_causality_some in D. clear - F D. revert l1 F. induction D; intros l1 F; inversion F; subst; auto. f_equal; [congruence|auto]. }
  subst. destruct X as [N _]. eapply Permutation_NoDup; [|exact N]. apply Permutation_flat_map, Permutation_sym. auto.
Qed.

(** ** Types *)
Definition good (g : fsig) : Prop := NoDup (g_params g) /\ forall t, In (BOther t) (g_ins g) <-> In t (g_params g).

Lemma safe_identity : forall a b, safe (identical UIdentity a b).
Proof.
  induction a using ty_ind'; intros b'.
  - destruct b' as [r|]; [|discriminate]. cbn. unfold require_identical. destruct b; go.
  - destruct b' as [|us]; [discriminate|]. rewrite identical_mult. go. clear -H.
    revert us. induction H as [|t ts Ht _ IH]; intros [|v us]; cbn [identicals]; go; [apply Ht| |apply IH].
    assert (u = UIdentity); [|subst; apply IH]. apply attempt_some in E. apply identical_eq in E. tauto.
Qed.
Lemma safe_mapping : forall a m b, (forall x, In x (ty_vars a) -> In x (map fst m)) -> safe (identical (UMapping m) a b).
Proof.
  induction a using ty_ind'; intros m b' K.
  - destruct b' as [r|]; [|discriminate]. cbn. unfold require_identical. destruct b as [| | |x]; try solve [go].
    destruct (lookup_in x m) as (o & L); [apply K; cbn; auto|]. rewrite L. go.
  - destruct b' as [|us]; [discriminate|]. rewrite identical_mult. go. clear Heqb. cbn [ty_vars] in K.
    revert m us K. induction H as [|t ts Ht _ IH]; intros m [|v us] K; cbn [identicals]; go; cbn [flat_map] in K.
    + apply Ht. intros x J. apply K, in_app_iff. auto.
    + apply attempt_some in E. apply identical_sound in E. destruct E as (m' & -> & [Km _] & _). apply IH.
      intros x J. rewrite Km. apply K, in_app_iff. auto.
    + apply IH. intros x J. apply K, in_app_iff. auto.
Qed.
Lemma safe_instance : forall f m actual, good f -> result (identical (UMapping (blank (g_params f))) (flat (g_ins f)) actual) = Some (UMapping m) -> safe (instances m).
Proof.
  intros f m actual [N G] H. apply identical_sound in H. destruct H as (m' & Q & [K _] & A & _). inversion Q; subst m'.
  assert (Kb : map fst (blank (g_params f)) = g_params f) by (unfold blank; rewrite map_map; apply map_id). rewrite Kb in K.
  destruct (instances_ok m) as (l & E); [|intros X; rewrite X in E; discriminate].
  intros x o J ->. assert (Jx : In x (g_params f)) by (rewrite <- K; apply (in_map fst) in J; exact J).
  destruct (A x) as (v & L); [apply in_ty_vars_flat, G; auto|].
  rewrite <- K in N. assert (E : lookup x m = Some None); [|congruence]. clear -J N.
  induction m as [|[y p] m IH]; [destruct J|]. cbn in *. inversion N; subst. destruct J as [J|J].
  - inversion J; subst. rewrite String.eqb_refl. auto.
  - destruct (String.eqb_spec x y); auto. subst. exfalso. apply H1. apply (in_map fst) in J. exact J.
Qed.

Lemma safe_tc : forall ctx, Forall good (c_blocks ctx) -> forall e s, (forall id, In id (deep_calls e) -> id < length (c_blocks ctx)) -> safe (tc ctx e s).
Proof.
  intros ctx G. pose (P := fun e => forall s, (forall id, In id (deep_calls e) -> id < length (c_blocks ctx)) -> safe (tc ctx e s)).
  assert (Prim : forall x, safe x -> safe (primitive x)).
  { intros x H. unfold primitive. go. destruct t; discriminate. }
  assert (Op2 : forall op a b, safe (bin_accepts op a b)) by (intros [] [] []; unfold bin_accepts; cbn; go).
  assert (Op1 : forall op a, safe (un_accepts op a)) by (intros [] []; discriminate).
  assert (Opc : forall op a b, safe (cmp_accepts op a b)) by (intros [] [] []; unfold cmp_accepts; cbn; go).
  assert (Bo : forall b, safe (is_bool b)) by (intros []; discriminate).
  intros e. change (P e).
  induction e using expr_ind'; intros s D; cbn [tc]; cbn [deep_calls] in D;
    try solve [go; repeat first [apply Prim|apply Op1|apply Op2|apply Opc|apply Bo|apply safe_identity|(apply IHe; intros; apply D; rewrite ?in_app_iff; auto)|
      (apply IHe1; intros; apply D; rewrite ?in_app_iff; auto)|(apply IHe2; intros; apply D; rewrite ?in_app_iff; auto)|(apply IHe3; intros; apply D; rewrite ?in_app_iff; auto)]].
  - go. change (safe (tcs ctx l s)). revert s D. induction H as [|e l He _ IH]; intros s D; cbn [tcs]; go.
    + apply He. intros; apply D; cbn; rewrite in_app_iff; auto.
    + apply IH. intros; apply D; cbn; rewrite in_app_iff; auto.
  - go.
    + apply IHe. intros; apply D; rewrite in_app_iff; auto.
    + apply H. intros; apply D; rewrite in_app_iff; auto.
    + apply safe_identity.
  - go; try (unfold is_primitive; go); repeat first [apply Bo|apply safe_identity|
      (apply IHe1; intros; apply D; rewrite ?in_app_iff; auto)|(apply IHe2; intros; apply D; rewrite ?in_app_iff; auto)|(apply IHe3; intros; apply D; rewrite ?in_app_iff; auto)].
  - assert (L : id < length (c_blocks ctx)) by (apply D; cbn; auto). apply nth_error_Some in L.
    destruct (nth_error (c_blocks ctx) id) as [f|] eqn:Nf; [|congruence].
    assert (Gf : good f) by (rewrite Forall_forall in G; apply G; eapply nth_error_In; eauto).
    apply safe_bind; [apply IHe; intros; apply D; cbn; auto|]. intros (t, s1) _.
    rewrite from_generics_ok by apply Gf. apply safe_bind; [discriminate|]. intros u Eu. inversion Eu; subst u.
    apply safe_bind; [apply safe_mapping; intros x J; unfold blank; rewrite map_map, map_id; apply Gf, in_ty_vars_flat; auto|].
    intros u E. destruct u as [|m]; [apply identical_sound in E; destruct E as (m & X & _); discriminate|].
    apply safe_bind; [eapply safe_instance; eauto|discriminate].
Qed.

Lemma safe_tc_target : forall ctx t, safe (tc_target ctx t).
Proof.
  intros ctx. induction t using vartuple_ind'; cbn [tc_target]; go. apply safe_omap. intros a J. rewrite Forall_forall in H. auto.
Qed.
Lemma safe_tc_stmts : forall ctx, Forall good (c_blocks ctx) -> forall l s,
  (forall id i e, In i l -> sourced i = true -> In e (stmt_exprs i) -> In id (deep_calls e) -> id < length (c_blocks ctx)) -> safe (tc_stmts ctx l s).
Proof.
  intros ctx G. induction l as [|i l IH]; intros s D; cbn [tc_stmts]; [discriminate|].
  assert (R : forall s, safe (tc_stmts ctx l s)) by (intros s'; apply IH; intros id i' e J; apply D; cbn; auto).
  go; try apply R. destruct i as [t e|e|id v c|id e]; cbn [tc_stmt]; try discriminate.
  - go; [apply safe_tc_target|apply safe_tc; auto; intros id H; apply (D id (SLet t e) e); simpl; auto|apply safe_identity].
  - unfold primitive. go; [apply safe_tc; auto; intros id H; apply (D id (SAssert e) e); simpl; auto|unfold is_primitive; go|destruct b; discriminate].
Qed.

Lemma safe_tc_vars : forall l vars, safe (tc_vars l vars).
Proof.
  induction l as [|v l IH]; intros vars; cbn [tc_vars]; go; try apply IH.
  unfold tc_clock. go. unfold is_bool. go.
Qed.
Lemma safe_tc_blocks : forall funs l, safe (tc_blocks funs l).
Proof. intros funs. induction l as [|f l IH]; cbn [tc_blocks]; go. Qed.
Lemma safe_generics : forall d a b, safe (tc_generics d a b).
Proof.
  intros d a b. unfold tc_generics. go; try (apply safe_each; intros v _; unfold tc_declared; go).
Qed.
Lemma tc_blocks_from : forall funs l gs, result (tc_blocks funs l) = Some gs ->
  length gs = length l /\ forall g, In g gs -> exists f, In f l /\ lookup f funs = Some g.
Proof.
  intros funs. induction l as [|f l IH]; intros gs H; cbn [tc_blocks] in H; [inv_out; split; [auto|intros g []]|].
  destruct (lookup f funs) as [g|] eqn:L; [|discriminate]. apply obind_some in H. destruct H as (gs' & E & H). inv_out.
  destruct (IH _ E) as [A B]. split; [cbn; auto|]. intros g' [<-|J]; [exists f; cbn; auto|]. destruct (B _ J) as (f' & J' & L'). exists f'. cbn. auto.
Qed.

Lemma safe_tc_node : forall gl fn o nd, (forall f g, In f (n_blocks nd) -> lookup f fn = Some g -> good g) ->
  (forall id i e, In i (n_stmts nd) -> sourced i = true -> In e (stmt_exprs i) -> In id (deep_calls e) -> id < length (n_blocks nd)) ->
  safe (tc_node gl fn o nd).
Proof.
  intros gl fn o nd G D. unfold tc_node. go; try apply safe_generics; try apply safe_tc_vars; try apply safe_tc_blocks; try (unfold tc_executable, scope_close; go).
  match goal with H : result (tc_blocks _ _) = Some _ |- _ => apply tc_blocks_from in H; destruct H as [Hl Hg] end.
  apply safe_tc_stmts; cbn [c_blocks].
  - apply Forall_forall. intros g J. destruct (Hg _ J) as (f & Jf & L). eauto.
  - rewrite Hl. auto.
Qed.

Lemma const_no_calls : forall e, result (is_const e) = Some tt -> deep_calls e = [].
Proof.
  induction e using expr_ind'; cbn [is_const deep_calls]; intros E; try discriminate; auto.
  - destruct (is_const e1) as [[[]|] ? ?|], (is_const e2) as [[[]|] ? ?|]; cbn in *; try discriminate. rewrite IHe1, IHe2; auto.
  - destruct (is_const e1) as [[[]|] ? ?|], (is_const e2) as [[[]|] ? ?|]; cbn in *; try discriminate. rewrite IHe1, IHe2; auto.
  - destruct (is_const e1) as [[[]|] ? ?|], (is_const e2) as [[[]|] ? ?|], (is_const e3) as [[[]|] ? ?|]; cbn in *; try discriminate.
    rewrite IHe1, IHe2, IHe3; auto.
Qed.
Lemma safe_is_const : forall e, safe (is_const e).
Proof. induction e using expr_ind'; cbn [is_const]; go. Qed.

(** What the checker needs to know of a declaration. *)
Definition tame_decl (called : ident -> Prop) (d : decl) : Prop :=
  match d with
  | DNode o nd =>
      (called (n_name nd) -> good (node_sig o nd)) /\ (forall f, In f (n_blocks nd) -> called f) /\
      (forall id i e, In i (n_stmts nd) -> sourced i = true -> In e (stmt_exprs i) -> In id (deep_calls e) -> id < length (n_blocks nd))
  | DExtNode o x i o' => called x -> good (ext_sig o i o')
  | _ => True
  end.

Lemma safe_tc_decls : forall called l gl fn, Forall (tame_decl called) l ->
  (forall f g, called f -> lookup f fn = Some g -> good g) ->
  NoDup (map RGlobal (map fst gl) ++ map RFun (map fst fn) ++ flat_map decl_provides l) -> safe (tc_decls gl fn l).
Proof.
  intros called. induction l as [|d l IH]; intros gl fn T G N; cbn [tc_decls]; [discriminate|]. inversion T as [|? ? Td Tl]; subst.
  apply safe_bind; [apply safe_attempt; destruct d; go|intros r _].
  - unfold tc_const. apply safe_bind; [apply safe_is_const|]. intros [] Ec. go; [apply safe_tc; [constructor|]|apply safe_identity].
    intros id J. rewrite const_no_calls in J by auto. destruct J.
  - destruct Td as (_ & B & D). apply safe_tc_node; eauto.
  - unfold tc_ext_node. go; try apply safe_generics; try apply safe_tc_vars; unfold tc_executable, scope_close; go.
  - assert (Mid : forall (a b c : list reference) x, NoDup (a ++ b ++ x :: c) -> ~ In x a /\ ~ In x b /\ NoDup (x :: a ++ b ++ c) /\ NoDup (a ++ x :: b ++ c)).
    { intros a b c x H. assert (P1 : Permutation (a ++ b ++ x :: c) (x :: a ++ b ++ c)).
      { rewrite !app_assoc. apply Permutation_sym, Permutation_middle. }
      assert (P2 : Permutation (a ++ b ++ x :: c) (a ++ x :: b ++ c)) by (apply Permutation_app_head, Permutation_sym, Permutation_middle).
      pose proof (Permutation_NoDup P1 H) as H1. pose proof (Permutation_NoDup P2 H) as H2. inversion H1 as [|? ? Nx _]; subst. rewrite !in_app_iff in Nx. tauto. }
    apply safe_bind; [|intros (gl', fn') E; apply safe_bind; [|intros (ok, ds) _; discriminate]].
    + destruct d; cbn [flat_map decl_provides app] in N; destruct (Mid _ _ _ _ N) as (Na & Nb & _);
        (match goal with |- safe (match lookup ?x ?m with _ => _ end) => destruct (lookup x m) eqn:L; [exfalso; apply in_lookup in L|discriminate] end);
        [apply Na|apply Nb|apply Na|apply Nb]; apply in_map; auto.
    + destruct d; cbn [flat_map decl_provides app] in N; destruct (Mid _ _ _ _ N) as (Na & Nb & N1 & N2);
        (match goal with H : result (match lookup ?x ?m with _ => _ end) = _ |- _ => destruct (lookup x m) eqn:L; [discriminate|]; inversion H; subst; clear H end);
        apply IH; auto.
      * intros f g C. cbn [lookup]. destruct (String.eqb_spec f (n_name nd)); eauto. subst. intros Q. inversion Q; subst. apply Td. auto.
      * intros f g C. cbn [lookup]. destruct (String.eqb_spec f x); eauto. subst. intros Q. inversion Q; subst. apply Td. auto.
Qed.

Lemma safe_typecheck : forall called l, Forall (tame_decl called) l -> NoDup (flat_map decl_provides l) -> safe (typecheck l).
Proof.
  intros called l T N. unfold typecheck. apply safe_bind; [eapply safe_tc_decls; eauto; intros f g _; discriminate|].
  intros (ok, l') _. destruct ok; discriminate.
Qed.

(** ** Clocks *)
Fixpoint deep_vars (e : expr) : list ident :=
  match e with
  | EVar x _ => [x]
  | ELit _ | EGlobal _ => []
  | EFetch id i n => (match i with Some i => deep_vars i | None => [] end) ++ deep_vars n
  | ETuple l => flat_map deep_vars l
  | EPre e | EParen e | EUn _ e | ESub _ _ e => deep_vars e
  | EBin _ a b | ECmp _ a b | EClock _ a b | ELater _ a b | EFlip _ a b => deep_vars a ++ deep_vars b
  | EIf a b c | EMerge a b c => deep_vars a ++ deep_vars b ++ deep_vars c
  end.

Lemma primitive_some : forall x b s, result (primitive x) = Some (b, s) -> exists t, result x = Some (t, s).
Proof. intros x b s H. unfold primitive in H. apply obind_some in H. destruct H as ((t, s') & E & H). apply obind_some in H. destruct H as (b' & _ & H). inv_out. eauto. Qed.
Lemma primitive_some' : forall x r, result (primitive x) = Some r -> exists r', result x = Some r'.
Proof. intros x [b s] H. apply primitive_some in H. destruct H; eauto. Qed.

Lemma tc_vars_known : forall ctx e s r, result (tc ctx e s) = Some r -> forall x, In x (deep_vars e) -> In x (map fst (c_vars ctx)).
Proof.
  intros ctx. pose (P := fun e => forall s r, result (tc ctx e s) = Some r -> forall x, In x (deep_vars e) -> In x (map fst (c_vars ctx))).
  intros e. change (P e).
  induction e using expr_ind'; intros s r E y J; cbn [tc] in E; cbn [deep_vars] in J; rewrite ?in_app_iff in J;
    try solve [destruct J];
    try solve [repeat match goal with
      | H : result (obind _ _) = Some _ |- _ => let a := fresh "r" in let K := fresh "K" in apply obind_some in H; destruct H as (a & K & H); try (is_var a; destruct a)
      | H : result (attempt _) = Some _ |- _ => apply attempt_some in H
      | H : result (need ?o) = Some _ |- _ => cbn [need result] in H; try discriminate; subst
      | H : result (primitive _) = Some _ |- _ => apply primitive_some' in H; destruct H as (? & H)
      | H : None = Some _ |- _ => discriminate H
      end; intuition eauto].
  - destruct J as [<-|[]]. destruct (lookup x (c_vars ctx)) eqn:L; [|discriminate]. eapply in_lookup; eauto.
  - apply obind_some in E. destruct E as ((ts, s') & E & _). change (result (tcs ctx l s) = Some (ts, s')) in E.
    revert s ts s' E J. induction H as [|e l He _ IH]; intros s ts s' E J; [destruct J|]. cbn [tcs] in E. cbn [flat_map] in J.
    apply obind_some in E. destruct E as ((t1, s1) & E1 & E). apply obind_some in E. destruct E as ((t2, s2) & E2 & E).
    apply in_app_iff in J. destruct J as [J|J]; eauto.
  - apply obind_some in E. destruct E as ((t1, s1) & E1 & E). apply obind_some in E. destruct E as (s2 & E2 & E).
    destruct J as [J|J]; eauto. destruct i as [i|]; [|destruct J]. apply obind_some in E2. destruct E2 as ((t3, s3) & E3 & E2). cbn in H. eauto.
  - destruct (nth_error (c_blocks ctx) id); [|discriminate]. apply obind_some in E. destruct E as ((t1, s1) & E1 & E). eauto.
Qed.

Lemma omap_in : forall {A B} (f : A -> out B) l bs, result (omap f l) = Some bs -> forall a, In a l -> exists b, result (f a) = Some b.
Proof. intros A B f l bs H a J. apply omap_some in H. destruct (forall2_in_l _ _ _ H _ J) as (b & _ & E). eauto. Qed.
Lemma tc_target_known : forall ctx t r, result (tc_target ctx t) = Some r -> forall x, In x (target_vars t) -> In x (map fst (c_vars ctx)).
Proof.
  intros ctx. induction t using vartuple_ind'; intros r E y J; cbn [tc_target] in E; cbn [target_vars] in J.
  - destruct J as [<-|[]]. destruct (lookup x (c_vars ctx)) eqn:L; [|discriminate]. eapply in_lookup; eauto.
  - apply obind_some in E. destruct E as (ts & E & _). apply in_flat_map in J. destruct J as (t & Jt & J).
    destruct (omap_in _ _ _ E _ Jt) as (b & Eb). rewrite Forall_forall in H. eauto.
Qed.

(** All the variables of an equation or assertion are declared. *)
Definition known (vars : list ident) (i : stmt) : Prop :=
  match i with
  | SLet t e => (forall x, In x (target_vars t) -> In x vars) /\ (forall x, In x (deep_vars e) -> In x vars)
  | SAssert e => forall x, In x (deep_vars e) -> In x vars
  | SUpdate _ _ | SInit _ _ _ => True
  end.
Lemma tc_stmts_known : forall ctx l s s', result (tc_stmts ctx l s) = Some (Some s') -> Forall (known (map fst (c_vars ctx))) l.
Proof.
  intros ctx. induction l as [|i l IH]; intros s s' H; [constructor|]. cbn [tc_stmts] in H.
  apply obind_some in H. destruct H as (r & E & H). apply attempt_some in E. destruct r as [s1|]; [|apply obind_some in H; destruct H as (? & _ & H); discriminate].
  constructor; eauto. destruct i as [t e|e|id v c|id e]; cbn [tc_stmt known] in *; auto.
  - apply obind_some in E. destruct E as (t' & E1 & E). apply attempt_some in E1. apply obind_some in E. destruct E as (r & E2 & E). apply attempt_some in E2.
    apply obind_some in E. destruct E as (t2 & E3 & E). cbn in E3. subst t'. apply obind_some in E. destruct E as (r2 & E4 & E). cbn in E4. subst r.
    split; [eapply tc_target_known; eauto|eapply tc_vars_known; eauto].
  - apply obind_some in E. destruct E as (r & E1 & E). apply primitive_some' in E1. destruct E1 as (r' & E1). eapply tc_vars_known; eauto.
Qed.

Lemma safe_refine : forall a b, safe (refine a b).
Proof. intros [] []; cbn; go. Qed.
Lemma safe_clk_identical : forall a b, safe (clk_identical a b).
Proof. intros [] []; cbn; go. Qed.
Lemma safe_is_implicit : forall a, safe (is_implicit a).
Proof. intros []; discriminate. Qed.
Lemma safe_as_clock : forall e p, safe (as_clock e p).
Proof. intros [] p; discriminate. Qed.

Lemma safe_kc : forall local e s, (forall x, In x (deep_vars e) -> In x (map fst local)) -> safe (kc local e s).
Proof.
  intros local. pose (P := fun e => forall s, (forall x, In x (deep_vars e) -> In x (map fst local)) -> safe (kc local e s)).
  intros e. change (P e).
  induction e using expr_ind'; intros s D; cbn [kc]; cbn [deep_vars] in D;
    try solve [go; repeat first [apply safe_refine|apply safe_clk_identical|apply safe_is_implicit|apply safe_as_clock|(apply IHe; intros; apply D; rewrite ?in_app_iff; auto)|
      (apply IHe1; intros; apply D; rewrite ?in_app_iff; auto)|(apply IHe2; intros; apply D; rewrite ?in_app_iff; auto)|(apply IHe3; intros; apply D; rewrite ?in_app_iff; auto)]].
  - destruct (lookup_in x local) as (c & L); [apply D; cbn; auto|]. rewrite L. discriminate.
  - change (safe (kc local (ETuple l) s)). rewrite kc_tuple. destruct l as [|e0 l]; [discriminate|]. assert (D0 : forall x, In x (deep_vars e0) -> In x (map fst local)) by (intros; apply D; cbn; rewrite in_app_iff; auto).
    assert (Rest : forall l g s, Forall P l -> (forall x, In x (flat_map deep_vars l) -> In x (map fst local)) -> safe (kcs local g l s)).
    { clear. intros l g s H. revert s. induction H as [|e l He _ IH]; intros s D; cbn [kcs]; go.
      + apply He. intros; apply D; cbn; rewrite in_app_iff; auto.
      + apply safe_clk_identical.
      + apply IH. intros; apply D; cbn; rewrite in_app_iff; auto. }
    apply safe_bind; [inversion H; subst; auto|]. intros (g, s1) _. apply safe_bind; [|discriminate]. apply (Rest (e0 :: l) g s1); auto.
  - go.
    + apply IHe. intros; apply D; rewrite in_app_iff; auto.
    + apply H. intros; apply D; rewrite in_app_iff; auto.
    + apply safe_clk_identical.
Qed.
Lemma safe_kc_target : forall local t, (forall x, In x (target_vars t) -> In x (map fst local)) -> safe (kc_target local t).
Proof.
  intros local. induction t using vartuple_ind'; intros D.
  - cbn. destruct (lookup_in x local) as (c & L); [apply D; cbn; auto|]. rewrite L. discriminate.
  - destruct l as [|t0 l]; [discriminate|]. cbn [kc_target].
    assert (Rest : forall g ls, Forall (fun t => (forall x, In x (target_vars t) -> In x (map fst local)) -> safe (kc_target local t)) ls ->
      (forall x, In x (flat_map target_vars ls) -> In x (map fst local)) ->
      safe ((fix go (l : list vartuple) : out unit := match l with [] => done tt | t :: l => k <~ kc_target local t;; _ <~ clk_identical g k;; go l end) ls)).
    { clear. induction 1 as [|t l Ht _ IH]; intros D; go.
      + apply Ht. intros; apply D; cbn; rewrite in_app_iff; auto.
      + apply safe_clk_identical.
      + apply IH. intros; apply D; cbn; rewrite in_app_iff; auto. }
    apply safe_bind; [inversion H; subst; apply H2; intros; apply D; cbn; rewrite in_app_iff; auto|]. intros g _.
    apply safe_bind; [|discriminate]. apply (Rest g (t0 :: l)); auto.
Qed.
Lemma safe_kc_stmts : forall local l s, Forall (known (map fst local)) l -> safe (kc_stmts local l s).
Proof.
  intros local l s H. revert s. induction H as [|i l Hi _ IH]; intros s; cbn [kc_stmts]; go; auto.
  destruct i as [t e|e|id v c|id e]; cbn [kc_stmt known] in *; try discriminate.
  - go; try apply safe_clk_identical; [apply safe_kc_target|apply safe_kc]; tauto.
  - go; [apply safe_kc; auto|apply safe_is_implicit].
Qed.

(** The clocks of all the registers are recorded. *)
Lemma kc_regs : forall local e s k s', result (kc local e s) = Some (k, s') ->
  (forall id, In id (map fst s) -> In id (map fst s')) /\ (forall id, In id (deep_regs e) -> In id (map fst s')).
Proof.
  intros local. pose (P := fun e => forall s k s', result (kc local e s) = Some (k, s') ->
    (forall id, In id (map fst s) -> In id (map fst s')) /\ (forall id, In id (deep_regs e) -> In id (map fst s'))).
  intros e. change (P e).
  induction e using expr_ind'; intros s k s' E; cbn [kc] in E; cbn [deep_regs];
    try solve [repeat match goal with
      | H : result (obind _ _) = Some _ |- _ => let a := fresh "r" in let K := fresh "K" in apply obind_some in H; destruct H as (a & K & H); repeat match goal with p : (_ * _)%type |- _ => destruct p end
      | H : result (attempt _) = Some _ |- _ => apply attempt_some in H
      | H : result (need ?o) = Some _ |- _ => cbn [need result] in H; try discriminate; subst
      | H : result (done _) = Some _ |- _ => inversion H; subst; clear H
      | H : None = Some _ |- _ => discriminate H
      end;
      repeat match goal with H : result ?x = Some _, K : context [knext (result ?x) _] |- _ => rewrite H in K end; cbn [knext] in *;
      repeat match goal with
      | IH : P ?e, H : result (kc local ?e _) = Some _ |- _ => apply IH in H; destruct H
      end; split; intros ? J; rewrite ?in_app_iff in J; cbn in J; intuition eauto].
  - destruct (lookup x local); inversion E; subst. split; auto; intros ? [].
  - change (result (kc local (ETuple l) s) = Some (k, s')) in E. rewrite kc_tuple in E. destruct l as [|e0 l]; [inversion E; subst; split; auto; intros ? []|].
    assert (Rest : forall g l, Forall P l -> forall s s', result (kcs local g l s) = Some s' ->
      (forall id, In id (map fst s) -> In id (map fst s')) /\ (forall id, In id (flat_map deep_regs l) -> In id (map fst s'))).
    { clear. induction 1 as [|e l He _ IH]; intros s s' E; cbn [kcs] in E; [inversion E; subst; split; auto; intros ? []|].
      apply obind_some in E. destruct E as ((k1, s1) & E1 & E). apply obind_some in E. destruct E as (u & _ & E).
      apply He in E1. destruct E1 as [A1 B1]. apply IH in E. destruct E as [A2 B2]. split; auto. intros id J. cbn in J. apply in_app_iff in J. destruct J; auto. }
    apply obind_some in E. destruct E as ((g, s1) & E1 & E). apply obind_some in E. destruct E as (s2 & E2 & E). inversion E; subst.
    apply (Rest _ _ H) in E2. destruct E2 as [A2 B2]. inversion H; subst. apply H2 in E1. destruct E1 as [A1 _]. auto.
  - apply obind_some in E. destruct E as ((k1, s1) & E1 & E). apply obind_some in E. destruct E as (s2 & E2 & E). inversion E; subst.
    apply IHe in E1. destruct E1 as [A1 B1]. destruct i as [i|].
    + apply obind_some in E2. destruct E2 as ((k3, s3) & E3 & E2). apply obind_some in E2. destruct E2 as (u & _ & E2). inversion E2; subst.
      apply H in E3. destruct E3 as [A3 B3]. split; intros id' J; cbn; auto. destruct J as [J|J]; auto. apply in_app_iff in J. destruct J; auto.
    + inversion E2; subst. split; intros id' J; cbn; auto. destruct J as [J|J]; auto.
Qed.

Lemma kc_stmts_regs : forall local l s s', result (kc_stmts local l s) = Some (Some s') ->
  (forall id, In id (map fst s) -> In id (map fst s')) /\
  (forall id i e, In i l -> sourced i = true -> In e (stmt_exprs i) -> In id (deep_regs e) -> In id (map fst s')).
Proof.
  intros local. induction l as [|i l IH]; intros s s' H; cbn [kc_stmts] in H; [inversion H; subst; split; auto; intros ? ? ? []|].
  apply obind_some in H. destruct H as (r & E & H). apply attempt_some in E.
  destruct r as [s1|]; [|apply obind_some in H; destruct H as (? & _ & H); discriminate].
  destruct (IH _ _ H) as [A B].
  assert (G : (forall id, In id (map fst s) -> In id (map fst s1)) /\
    (sourced i = true -> forall id e, In e (stmt_exprs i) -> In id (deep_regs e) -> In id (map fst s1))).
  { destruct i as [t e|e|id v c|id e]; cbn [kc_stmt sourced] in *; try (inversion E; subst; split; [auto|discriminate]).
    - apply obind_some in E. destruct E as (k & _ & E). apply obind_some in E. destruct E as ((r, s2) & E1 & E).
      assert (s1 = s2).
      { destruct t as [x|[|t l0]]; try (apply obind_some in E; destruct E as (u & _ & E)); inversion E; auto. }
      subst s2. apply kc_regs in E1. destruct E1 as [A1 B1]. split; auto. intros _ id e' J. simpl in J. destruct J as [<-|[]]. auto.
    - apply obind_some in E. destruct E as ((r, s2) & E1 & E). apply obind_some in E. destruct E as (u & _ & E). inversion E; subst.
      apply kc_regs in E1. destruct E1 as [A1 B1]. split; auto. intros _ id e' J. simpl in J. destruct J as [<-|[]]. auto. }
  destruct G as [G1 G2]. split; auto. intros id i' e [<-|J] S' Ie Id; eauto.
Qed.

Lemma occurs_regs : forall id i n e, occurs (EFetch id i n) e -> In id (deep_regs e).
Proof.
  intros id i n e H. induction H as [|e c J _ IH]; [cbn; auto|].
  destruct e; cbn [children] in J; cbn [deep_regs]; try (destruct J; fail); rewrite ?in_app_iff; cbn in J;
    repeat match goal with
    | J : _ \/ _ |- _ => destruct J
    | J : False |- _ => destruct J
    | J : _ = c |- _ => subst
    end; auto.
  - apply in_flat_map. eauto.
  - right. apply in_app_iff. destruct init as [x|]; cbn in J; repeat match goal with
    | J : _ \/ _ |- _ => destruct J
    | J : False |- _ => destruct J
    | J : _ = c |- _ => subst
    end; auto.
Qed.

(** Every register that is initialised is read in an equation or assertion. *)
Definition read_inits (nd : node) : Prop := forall id v c, In (SInit id v c) (n_stmts nd) ->
  exists i e, In i (n_stmts nd) /\ sourced i = true /\ In e (stmt_exprs i) /\ In id (deep_regs e).

Lemma safe_kc_node : forall nd, Forall (known (map v_name (all_vars nd))) (n_stmts nd) -> read_inits nd -> safe (kc_node nd).
Proof.
  intros nd K R. unfold kc_node. apply safe_bind; [apply safe_each; intros; apply safe_is_implicit|]. intros _ _.
  assert (Kn : Forall (known (map fst (rev (map (fun v => (v_name v, v_clk v)) (n_inputs nd ++ n_outputs nd ++ n_locals nd))))) (n_stmts nd)).
  { assert (X : forall x, In x (map v_name (all_vars nd)) -> In x (map fst (rev (map (fun v => (v_name v, v_clk v)) (n_inputs nd ++ n_outputs nd ++ n_locals nd))))).
    { intros x J. rewrite map_rev, <- in_rev, map_map. exact J. }
    eapply Forall_impl; [|exact K]. intros [t e|e|id v c|id e]; cbn; auto. intros [A B]; split; auto. }
  apply safe_bind; [apply safe_kc_stmts; exact Kn|]. intros s E.
  apply safe_bind; [discriminate|]. intros s' E'. cbn in E'. subst s. apply kc_stmts_regs in E. destruct E as [_ B].
  apply safe_bind; [|discriminate]. apply safe_omap. intros i J. destruct i as [t e|e|id v c|id e]; cbn [fill_clock]; try discriminate.
  destruct (R _ _ _ J) as (i & e & Ji & S' & Je & Jr). pose proof (B _ _ _ Ji S' Je Jr) as Jn.
  assert (L : exists c, lookup_nat id s' = Some c); [|destruct L as (c' & ->); discriminate]. clear -Jn.
  induction s' as [|[m a] s IH]; [destruct Jn|]. cbn in *. destruct (Nat.eqb_spec id m); eauto. destruct Jn; [congruence|auto].
Qed.

Lemma safe_pos : forall e cur m, safe (Positivity.pos e cur m).
Proof.
  induction e using expr_ind'; intros cur m; cbn [Positivity.pos]; try solve [go; auto].
  - revert m. induction H as [|e l He _ IH]; intros m; go; auto.
Qed.
Lemma safe_positivity : forall l, safe (positivity l).
Proof.
  intros l. apply safe_omap. intros d _. destruct d; cbn [pos_decl]; go. unfold pos_node. go.
  generalize (@nil (ident * nat)). induction (n_stmts nd) as [|i l' IH]; intros m; cbn [pos_stmts]; go; auto.
  destruct i; cbn [pos_stmt]; go; apply safe_pos.
Qed.

(** ** Programs *)
Lemma generics_params : forall a es, Forall2 means a es -> generics es = type_params a.
Proof.
  induction 1 as [|x e a es M _ IH]; [reflexivity|]. unfold generics, type_params in *. cbn [flat_map]. rewrite IH. f_equal.
  destruct M; reflexivity.
Qed.
Lemma tr_decls_types : forall l, map v_base (tr_decls l) = flat_map (fun '(xs, (b, _)) => map (fun _ => b) xs) l.
Proof.
  induction l as [|[xs [b c]] l IH]; [reflexivity|]. unfold tr_decls in *. cbn [flat_map]. rewrite map_app, IH, map_map. reflexivity.
Qed.

Definition called (p : sprog) (f : ident) : Prop := exists b e, In b p /\ In e (expressions (snd b)) /\ In f (callees e).

Lemma translated_tame : forall p a d d', precautions p -> In a p -> result (tr_attrdecl a) = Some d -> decl_causality d = inl d' -> tame_decl (called p) d'.
Proof.
  intros p a d d' C Ia T D. pose proof (tr_attributed _ _ T) as (es & M & _ & Ca).
  pose proof (generics_params _ _ M) as Gp. unfold tr_attrdecl in T. apply obind_some in T. destruct T as (od & _ & T).
  destruct a as [at_ sd]. cbn [fst snd] in *. destruct sd as [x t e|sn|x t|x i o']; cbn [tr_decl] in T; apply obind_some in T; destruct T as (o & _ & T).
  - apply obind_some in T. destruct T as ((e', s) & _ & T). destruct (t_stmts s), (t_blocks s); inversion T; subst. cbn in D. inversion D; subst. exact I.
  - apply obind_some in T. destruct T as (nd & Tn & T). inversion T; subst d. clear T. cbn [decl_causality] in D.
    destruct (node_causality nd) as [nd'|] eqn:N; inversion D; subst d'. apply node_stmts_perm in N. destruct N as [Pm En].
    inversion Ca as [? ? ? No Nn| | |]; subst. cbn [tame_decl].
    assert (Eb : n_blocks nd' = n_blocks nd) by (rewrite En; reflexivity).
    assert (Ein : n_inputs nd' = tr_decls (s_inputs sn)).
    { rewrite En. cbn. unfold tr_node in Tn. apply obind_some in Tn. destruct Tn as (s & _ & Tn). inversion Tn. reflexivity. }
    split; [|split].
    + intros (b & e & Jb & Je & Jf). assert (Nm : n_name nd' = s_name sn) by (rewrite En; exact Nn). rewrite Nm in Jf.
      destruct (pc_called _ C (at_, XNode sn) _ _ _ Ia eq_refl Jb Je Jf) as [ND Dt]. cbn [fst snd input_types] in *.
      unfold good, node_sig. cbn [g_params g_ins]. rewrite (no_generics _ _ No), Gp, Ein, tr_decls_types. auto.
    + intros f J. rewrite Eb in J. destruct (tr_node_blocks _ _ _ _ Tn J) as (e & Je & Jf). exists (at_, XNode sn), e. auto.
    + intros id i e Ji Si Je Jd. rewrite Eb. destruct (tr_node_deep _ _ _ Tn) as [_ Dc].
      assert (K : In id (seq 0 (length (n_blocks nd)))).
      { eapply Permutation_in; [exact Dc|]. apply in_flat_map. exists e. split; auto. apply in_flat_map. exists i. split; auto.
        apply filter_In. split; auto. eapply Permutation_in; eauto. }
      apply in_seq in K. lia.
  - inversion T; subst. cbn in D. inversion D; subst. exact I.
  - inversion T; subst. cbn in D. inversion D; subst. inversion Ca as [| | |? ? ? ? ? ? No]; subst. cbn [tame_decl].
    intros (b & e & Jb & Je & Jf). destruct (pc_called _ C (at_, XExtNode x i o') _ _ _ Ia eq_refl Jb Je Jf) as [ND Dt]. cbn [fst snd input_types] in *.
    unfold good, ext_sig. cbn [g_params g_ins]. rewrite tr_decls_types. rewrite (eo_generics _ _ No), Gp. auto.
Qed.

Lemma translated_reads : forall a o nd nd', result (tr_attrdecl a) = Some (DNode o nd) -> node_causality nd = inl nd' -> read_inits nd'.
Proof.
  intros [at_ sd] o nd nd' T N. unfold tr_attrdecl in T. apply obind_some in T. destruct T as (od & _ & T). cbn [snd] in T.
  destruct sd as [x t e|sn|x t|x i o']; cbn [tr_decl] in T; apply obind_some in T; destruct T as (o1 & _ & T); try discriminate.
  - apply obind_some in T. destruct T as ((e', s) & _ & T). destruct (t_stmts s), (t_blocks s); discriminate.
  - apply obind_some in T. destruct T as (nd1 & Tn & T). inversion T; subst. apply node_stmts_perm in N. destruct N as [Pm _].
    pose proof (tr_node_translated _ _ _ Tn) as Tr. intros id v c J. destruct (td_init_occurs _ _ _ Tr id v c) as (n & e & Je & Oc).
    { eapply Permutation_in; eauto. }
    apply in_flat_map in Je. destruct Je as (i & Ji & Je). apply filter_In in Ji. destruct Ji as [Ji Si].
    exists i, e. split; [eapply Permutation_in; [apply Permutation_sym; eauto|auto]|]. split; auto. split; auto. eapply occurs_regs; eauto.
Qed.

Theorem no_abort : forall p, precautions p -> pipeline p <> Abort.
Proof.
  intros p C. change (safe (pipeline p)). unfold pipeline.
  apply safe_bind; [apply safe_omap; intros a Ja; apply safe_tr_attrdecl; [apply (pc_literals _ C)|apply (pc_counts _ C)]; auto|].
  intros l0 E0. apply omap_some in E0. unfold analyse. apply safe_bind; [apply safe_causality|]. intros l1 E1.
  pose proof (causality_nodup _ _ E1) as N1. apply causality_some in E1. destruct E1 as (l1' & F1 & P1 & _).
  assert (Or : forall d, In d l1 -> exists a d0, In a p /\ result (tr_attrdecl a) = Some d0 /\ decl_causality d0 = inl d).
  { intros d J. apply (Permutation_in _ P1) in J. destruct (forall2_in_r _ _ _ F1 _ J) as (d0 & J0 & D0).
    destruct (forall2_in_r _ _ _ E0 _ J0) as (a & Ja & T). eauto. }
  apply safe_bind.
  { apply (safe_typecheck (called p)); auto. apply Forall_forall. intros d J. destruct (Or _ J) as (a & d0 & Ja & T & D). eapply translated_tame; eauto. }
  intros l2 E2. apply typecheck_some in E2. apply safe_bind; [|intros; apply safe_positivity].
  apply safe_omap. intros d J. destruct (forall2_in_r _ _ _ E2 _ J) as (d1 & J1 & Td). destruct (Or _ J1) as (a & d0 & Ja & T & D).
  destruct d as [o x t e|o nd|o x t|o x i o']; cbn [kc_decl]; try discriminate.
  - apply safe_bind; [|discriminate]. inversion Td as [gl fn o1 nd1 nd2 gens Tc|d2 Nn]; subst; [|discriminate Nn].
    assert (D0 : exists nd0, d0 = DNode o nd0 /\ node_causality nd0 = inl nd1).
    { destruct d0; cbn [decl_causality] in D; try discriminate. destruct (node_causality nd0) eqn:Q; inversion D; subst. eauto. }
    destruct D0 as (nd0 & -> & Nc). pose proof (translated_reads _ _ _ _ T Nc) as R.
    unfold tc_node in Tc. apply obind_some in Tc. destruct Tc as (u1 & _ & Tc). apply obind_some in Tc. destruct Tc as (u2 & _ & Tc).
    apply obind_some in Tc. destruct Tc as ((ok, vars) & X3 & Tc). apply obind_some in Tc. destruct Tc as (u3 & X4 & Tc).
    destruct ok; [|discriminate]. apply tc_vars_ok in X3. destruct X3 as (_ & _ & V & _). rewrite app_nil_r in V.
    apply obind_some in Tc. destruct Tc as (bl & _ & Tc). apply obind_some in Tc. destruct Tc as (so & X5 & Tc).
    apply obind_some in Tc. destruct Tc as (s & X6 & Tc). cbn in X6. subst so. inversion Tc; subst nd gens. clear Tc.
    apply tc_stmts_known in X5. cbn [c_vars] in X5.
    apply safe_kc_node; cbn [n_stmts all_vars n_inputs n_outputs n_locals]; [|exact R].
    assert (X : forall x, In x (map fst vars) -> In x (map v_name (n_inputs nd1 ++ n_outputs nd1 ++ n_locals nd1))).
    { intros x Jx. rewrite V, map_rev, <- in_rev, map_map in Jx. exact Jx. }
    eapply Forall_impl; [|exact X5]. intros [t e|e|id v c|id e]; cbn; auto. intros [A B]; split; auto.
  - apply safe_bind; [apply safe_each; intros; apply safe_is_implicit|discriminate].
Qed.

Theorem no_crash : forall p, precautions p -> compile p <> Crashed.
Proof.
  intros p C H. unfold compile in H. pose proof (no_abort p C) as N. destruct (pipeline p) as [[l|] es ws|] eqn:E; [discriminate| |apply N; auto].
  apply rejection_reports in E. destruct es; [apply E; auto|discriminate].
Qed.
