(** The constants and the nodes that a translated declaration requires are those that its source mentions. *)
From Coq Require Import String List ZArith Bool Arith Lia Permutation.
From Verif Require Import Model.Base Model.Scalar Model.Value Model.Register Model.Ast Model.Errors Model.Interp Model.Options Model.Surface Model.Translate
  Model.Graph Model.Causality
  Spec.TranslateSpec Spec.ProgramSem Spec.SourceCausal Spec.ConstSpec Spec.CrashSpec Spec.Static
  Proofs.AstInd Proofs.OutBasics Proofs.CausalityProofs.
Import ListNotations.

Lemma chain : forall A B C D E F G H : Prop, (A <-> B \/ C \/ D) -> (C \/ D <-> E \/ F) -> (B \/ E <-> G \/ H) -> (A <-> G \/ F \/ H).
Proof. tauto. Qed.
Lemma chain' : forall A B C D E F G H : Prop, (A <-> C \/ B \/ D) -> (C \/ D <-> E \/ F) -> (B \/ E <-> G \/ H) -> (A <-> G \/ F \/ H).
Proof. tauto. Qed.

Definition outward (r : reference) : Prop := match r with RGlobal _ | RFun _ => True | _ => False end.
Definition needs_in (locals : list ident) (r : reference) (ns cs : list ident) : Prop :=
  match r with RGlobal x => In x ns /\ ~ In x locals | RFun g => In g cs | _ => False end.
Lemma needs_in_app : forall locals r a b c d, needs_in locals r (a ++ b) (c ++ d) <-> needs_in locals r a c \/ needs_in locals r b d.
Proof. intros. unfold needs_in. destruct r; rewrite ?in_app_iff; tauto. Qed.
Lemma needs_in_nil : forall locals r, ~ needs_in locals r [] [].
Proof. intros. unfold needs_in. destruct r; cbn; tauto. Qed.
Lemma needs_in_call : forall locals r f ns cs, outward r -> (needs_in locals r ns (f :: cs) <-> r = RFun f \/ needs_in locals r ns cs).
Proof.
  intros locals r f ns cs O. unfold needs_in. destruct r; try (destruct O); cbn [In]; split; intros Q; intuition congruence.
Qed.
Lemma needs_in_var : forall locals r x d, outward r -> (In r (expr_requires (tr_var locals x d)) <-> needs_in locals r [x] []).
Proof.
  intros locals r x d O. unfold tr_var, needs_in. destruct (existsb (String.eqb x) locals) eqn:Q.
  - assert (J : In x locals) by (apply existsb_exists in Q; destruct Q as (z & Z & Q); apply String.eqb_eq in Q; subst; auto).
    assert (K : ~ In r (expr_requires (EVar x d))) by (destruct d; [intros [K|[]]; subst r; destruct O|intros []]).
    split; [tauto|]. destruct r; try (destruct O); [intros []|]. intros ([A|[]] & B). subst. tauto.
  - assert (J : ~ In x locals) by (intros J; rewrite <- not_true_iff_false in Q; apply Q; apply existsb_exists; exists x; split; auto; apply String.eqb_refl).
    cbn [expr_requires In]. destruct r; try (destruct O); split.
    + intros [A|[]]. discriminate.
    + intros [].
    + intros [A|[]]. inversion A; subst. auto.
    + intros ([A|[]] & B). subst. auto.
Qed.

Section Names.
  Variable u : bool.
  Variable locals : list ident.
  Variable r : reference.
  Hypothesis outer : outward r.
  Local Notation f := (tr u locals).

  Definition has (s : tst) : Prop := In r (map RFun (t_blocks s)) \/ In r (flat_map stmt_requires (t_stmts s)).
  Local Notation needs := (needs_in locals r).
  Local Notation needs_app := (needs_in_app locals r).
  Local Notation needs_nil := (needs_in_nil locals r).

  Definition gathers (e : sexpr) : Prop := forall d s e' s', result (f e d s) = Some (e', s') ->
    (In r (expr_requires e') \/ has s' <-> has s \/ needs (names e) (callees e)).

  Lemma gathers_elems : forall l, Forall gathers l -> forall d s es s', result (tr_elems f l d s) = Some (es, s') ->
    (In r (flat_map expr_requires es) \/ has s' <-> has s \/ needs (flat_map names l) (flat_map callees l)).
  Proof.
    induction 1 as [|e l He Hl IH]; intros d s es s' E; cbn in E.
    - inversion E; subst. cbn [flat_map]. pose proof needs_nil. cbn [In]. tauto.
    - apply obind_some in E. destruct E as ((e1, s1) & E1 & E). apply obind_some in E. destruct E as ((l1, s2) & E2 & E). inversion E; subst.
      cbn [flat_map]. rewrite needs_app, in_app_iff. specialize (He _ _ _ _ E1). specialize (IH _ _ _ _ E2). tauto.
  Qed.
  Lemma gathers_left : forall {O} (compose : O -> expr -> expr -> expr), (forall o a b, expr_requires (compose o a b) = expr_requires a ++ expr_requires b) ->
    forall l, Forall (fun p => gathers (snd p)) l -> forall acc d s e' s', result (tr_left f compose acc l d s) = Some (e', s') ->
    (In r (expr_requires e') \/ has s' <-> In r (expr_requires acc) \/ has s \/ needs (flat_map (fun p => names (snd p)) l) (flat_map (fun p => callees (snd p)) l)).
  Proof.
    intros O compose C. induction 1 as [|[op e] l He Hl IH]; intros acc d s e' s' E; cbn in E.
    - inversion E; subst. cbn [flat_map]. pose proof needs_nil. tauto.
    - apply obind_some in E. destruct E as ((e1, s1) & E1 & E). cbn [snd] in He. cbn [flat_map snd]. rewrite needs_app.
      specialize (He _ _ _ _ E1). specialize (IH _ _ _ _ _ E). rewrite C, in_app_iff in IH. tauto.
  Qed.
  Definition keeps (compose : nat -> nat -> expr -> expr -> tst -> expr * tst) : Prop :=
    forall d i a b s c s', compose d i a b s = (c, s') ->
    (In r (expr_requires c) \/ has s' <-> In r (expr_requires a) \/ In r (expr_requires b) \/ has s).
  Lemma gathers_right : forall bump compose, keeps compose ->
    forall l, Forall gathers l -> forall i d s a s', result (tr_right f bump compose i l d s) = Some (a, s') ->
    ((exists b, a = Some b /\ In r (expr_requires b)) \/ has s' <-> has s \/ needs (flat_map names l) (flat_map callees l)).
  Proof.
    intros bump compose C. induction 1 as [|e l He Hl IH]; intros i d s a s' E; cbn in E.
    - inversion E; subst. cbn [flat_map]. pose proof needs_nil. split; [intros [(b & Q & _)|]; [discriminate|auto]|tauto].
    - apply obind_some in E. destruct E as ((acc, s1) & E1 & E). apply obind_some in E. destruct E as ((e1, s2) & E2 & E).
      cbn [flat_map]. rewrite needs_app. specialize (He _ _ _ _ E2). specialize (IH _ _ _ _ _ E1).
      assert (X : (exists b, a = Some b /\ In r (expr_requires b)) \/ has s' <->
        (exists b, acc = Some b /\ In r (expr_requires b)) \/ In r (expr_requires e1) \/ has s2).
      { destruct acc as [b|].
        - destruct (compose d i e1 b s2) as [c s3] eqn:Ec. inversion E; subst. specialize (C _ _ _ _ _ _ _ Ec). split.
          + intros [(x & X & J)|J]; [inversion X; subst|]; destruct C as [C _]; [destruct C as [C|[C|C]]|destruct C as [C|[C|C]]]; auto; left; exists b; auto.
          + intros J. assert (K : In r (expr_requires c) \/ has s') by (apply C; destruct J as [(x & X & J)|[J|J]]; [inversion X; subst; auto|auto|auto]).
            destruct K as [K|K]; auto. left. exists c. auto.
        - inversion E; subst. split.
          + intros [(x & X & J)|J]; [inversion X; subst|]; auto.
          + intros [(x & X & J)|[J|J]]; [discriminate| |auto]. left. exists e1. auto. }
      exact (chain _ _ _ _ _ _ _ _ X He IH).
  Qed.
  Lemma requires_paren : forall es b, expr_requires (paren es b) = flat_map expr_requires es.
  Proof. intros [|e [|e' l]] [|]; cbn; rewrite ?app_nil_r; auto. Qed.
  Lemma has_stmt : forall i s, has (add_stmt i s) <-> has s \/ In r (stmt_requires i).
  Proof. intros. unfold has. cbn. rewrite flat_map_app, in_app_iff. cbn. rewrite app_nil_r. tauto. Qed.
  Lemma has_reg : forall s, has (new_reg s) <-> has s.
  Proof. reflexivity. Qed.
  Lemma has_flip : forall s, has (new_flip s) <-> has s.
  Proof. reflexivity. Qed.
  Lemma update_requires : forall id e, In r (stmt_requires (SUpdate id e)) <-> In r (expr_requires e).
  Proof. intros. cbn. split; [intros [J|J]; auto; subst r; destruct outer|auto]. Qed.
  Lemma fetch_requires : forall id i n, ~ In r (expr_requires (EFetch id i n)).
  Proof. intros id i n [J|[]]. subst r. destruct outer. Qed.
  Lemma keeps_later : keeps later.
  Proof. intros d i a b s c s' E. inversion E; subst. cbn [expr_requires]. rewrite in_app_iff. tauto. Qed.
  Lemma keeps_flips : keeps then_flips.
  Proof. intros d i a b s c s' E. inversion E; subst. cbn [expr_requires]. rewrite in_app_iff, has_flip. tauto. Qed.
  Lemma keeps_registers : keeps fby_registers.
  Proof.
    intros d i a b s c s' E. unfold fby_registers in E. inversion E; subst. rewrite !has_stmt, update_requires, has_reg.
    pose proof (fetch_requires (t_regs s) (Some a) b). cbn [stmt_requires]. tauto.
  Qed.

  Lemma tr_gathers : forall e, gathers e.
  Proof.
    induction e using sexpr_ind'; intros d s e' s' E; cbn [tr] in E; cbn [names callees]; pose proof needs_nil as NN.
    - apply obind_some in E. destruct E as (x & X & E). inversion E; subst. destruct l; cbn in X; try destruct (in_i64 z); inversion X; subst; cbn; tauto.
    - inversion E; subst. rewrite (needs_in_var _ _ _ _ outer). tauto.
    - apply obind_some in E. destruct E as ((es, s1) & X & E). inversion E; subst. rewrite requires_paren. eapply gathers_elems; eauto.
    - apply obind_some in E. destruct E as ((es, s1) & X & E). inversion E; subst. cbn [expr_requires]. rewrite requires_paren.
      pose proof (gathers_elems _ H _ _ _ _ X) as G. rewrite (needs_in_call _ _ _ _ _ outer).
      assert (Hb : has (add_block f s1) <-> has s1 \/ r = RFun f).
      { unfold has. cbn [add_block t_blocks t_stmts]. rewrite map_app, in_app_iff. cbn [map In]. intuition auto. }
      rewrite Hb. clear - G. tauto.
    - apply obind_some in E. destruct E as ((e1, s1) & X & E). inversion E; subst. exact (IHe _ _ _ _ X).
    - apply obind_some in E. destruct E as ((e1, s1) & X & E). inversion E; subst. exact (IHe _ _ _ _ X).
    - destruct u eqn:Qu.
      + apply obind_some in E. destruct E as ((e1, s1) & X & E). inversion E; subst. rewrite !has_stmt, update_requires.
        rewrite <- Qu in X. specialize (IHe _ _ _ _ X). rewrite has_reg in IHe. pose proof (fetch_requires (t_regs s) None e1). cbn [stmt_requires In]. tauto.
      + apply obind_some in E. destruct E as ((e1, s1) & X & E). inversion E; subst. rewrite <- Qu in X. exact (IHe _ _ _ _ X).
    - apply obind_some in E. destruct E as ((c1, s1) & X1 & E). apply obind_some in E. destruct E as ((y1, s2) & X2 & E). apply obind_some in E. destruct E as ((n1, s3) & X3 & E). inversion E; subst.
      cbn [expr_requires]. rewrite !needs_app, !in_app_iff. specialize (IHe1 _ _ _ _ X1). specialize (IHe2 _ _ _ _ X2). specialize (IHe3 _ _ _ _ X3). tauto.
    - apply obind_some in E. destruct E as ((c1, s1) & X1 & E). apply obind_some in E. destruct E as ((y1, s2) & X2 & E). apply obind_some in E. destruct E as ((n1, s3) & X3 & E). inversion E; subst.
      cbn [expr_requires]. rewrite !needs_app, !in_app_iff. specialize (IHe1 _ _ _ _ X1). specialize (IHe2 _ _ _ _ X2). specialize (IHe3 _ _ _ _ X3). tauto.
    - apply obind_some in E. destruct E as ((e1, s1) & X & E). rewrite needs_app. specialize (IHe _ _ _ _ X).
      pose proof (gathers_left EBin (fun _ _ _ => eq_refl) _ H _ _ _ _ _ E) as G. tauto.
    - apply obind_some in E. destruct E as ((e1, s1) & X & E). rewrite needs_app. specialize (IHe _ _ _ _ X).
      destruct l as [|[op a] [|[op2 b] l]].
      + inversion E; subst. cbn [flat_map]. tauto.
      + apply obind_some in E. destruct E as ((a1, s2) & X2 & E). inversion E; subst. inversion H as [|? ? Ha]; subst. cbn [snd] in Ha.
        specialize (Ha _ _ _ _ X2). cbn [flat_map snd expr_requires]. rewrite !app_nil_r, in_app_iff. tauto.
      + apply obind_some in E. destruct E as ((a1, s2) & X2 & E). apply obind_some in E. destruct E as ((b1, s3) & X3 & E). discriminate.
    - apply obind_some in E. destruct E as ((e1, s1) & X & E). rewrite needs_app. specialize (IHe _ _ _ _ X).
      pose proof (gathers_left EClock (fun _ _ _ => eq_refl) _ H _ _ _ _ _ E) as G. tauto.
    - apply obind_some in E. destruct E as ((acc, s1) & X & E). apply obind_some in E. destruct E as ((e1, s2) & X2 & E). rewrite needs_app.
      specialize (IHe _ _ _ _ X2). assert (K : keeps (if u then fby_registers else later)) by (destruct u; [apply keeps_registers|apply keeps_later]).
      pose proof (gathers_right _ _ K _ H _ _ _ _ _ X) as G. destruct acc as [a|].
      + destruct ((if u then fby_registers else later) d 0 e1 a s2) as [c s3] eqn:Ec. inversion E; subst. specialize (K _ _ _ _ _ _ _ Ec).
        assert (Q : (exists b, Some a = Some b /\ In r (expr_requires b)) <-> In r (expr_requires a)).
        { split; [intros (b & B & J); inversion B; subst; auto|intros J; exists a; auto]. }
        rewrite Q in G. exact (chain' _ _ _ _ _ _ _ _ K IHe G).
      + inversion E; subst. assert (Q : (exists b : expr, None = Some b /\ In r (expr_requires b)) <-> False) by (split; [intros (b & B & _); discriminate|tauto]).
        rewrite Q in G. clear - IHe G. tauto.
    - apply obind_some in E. destruct E as ((acc, s1) & X & E). apply obind_some in E. destruct E as ((e1, s2) & X2 & E). rewrite needs_app.
      specialize (IHe _ _ _ _ X2). assert (K : keeps (if u then then_flips else later)) by (destruct u; [apply keeps_flips|apply keeps_later]).
      pose proof (gathers_right _ _ K _ H _ _ _ _ _ X) as G. destruct acc as [a|].
      + destruct ((if u then then_flips else later) d 0 e1 a s2) as [c s3] eqn:Ec. inversion E; subst. specialize (K _ _ _ _ _ _ _ Ec).
        assert (Q : (exists b, Some a = Some b /\ In r (expr_requires b)) <-> In r (expr_requires a)).
        { split; [intros (b & B & J); inversion B; subst; auto|intros J; exists a; auto]. }
        rewrite Q in G. exact (chain' _ _ _ _ _ _ _ _ K IHe G).
      + inversion E; subst. assert (Q : (exists b : expr, None = Some b /\ In r (expr_requires b)) <-> False) by (split; [intros (b & B & _); discriminate|tauto]).
        rewrite Q in G. clear - IHe G. tauto.
  Qed.

  Lemma stmts_gather : forall l s s', result (tr_stmts u locals l s) = Some s' ->
    (has s' <-> has s \/ exists i, In i l /\ needs (names (right_side i)) (callees (right_side i))).
  Proof.
    induction l as [|i l IH]; intros s s' E; cbn [tr_stmts] in E.
    - inversion E; subst. split; [auto|]. intros [H|(i & [] & _)]; auto.
    - apply obind_some in E. destruct E as (s1 & E1 & E). specialize (IH _ _ E).
      assert (X : has s1 <-> has s \/ needs (names (right_side i)) (callees (right_side i))).
      { destruct i as [t e|e]; cbn [tr_stmt] in E1; apply obind_some in E1; destruct E1 as ((e1, s2) & E1 & Q); inversion Q; subst;
          rewrite has_stmt; cbn [stmt_requires right_side]; pose proof (tr_gathers _ _ _ _ _ E1); tauto. }
      rewrite IH, X. split.
      + intros [[J|J]|(i' & J & K)]; auto; right; [exists i|exists i']; cbn; auto.
      + intros [J|(i' & [<-|J] & K)]; auto. right. eauto.
  Qed.
End Names.

(** The same names, as references. *)
Definition reference_of (n : entity) : reference := match n with Constant x => RGlobal x | Node g => RFun g end.
Lemma reference_outer : forall n, outward (reference_of n).
Proof. intros []; exact I. Qed.
Lemma reference_inj : forall a b, reference_of a = reference_of b -> a = b.
Proof. intros [x|x] [y|y] E; cbn in E; congruence. Qed.

Lemma decl_names : forall l, map v_name (tr_decls l) = declared l.
Proof. induction l as [|(xs, (b, c)) l IH]; auto. change (tr_decls ((xs, (b, c)) :: l)) with (map (fun x => mkVar x b c 0) xs ++ tr_decls l).
  rewrite map_app, IH. change (declared ((xs, (b, c)) :: l)) with (xs ++ declared l). rewrite map_map. cbn. rewrite map_id. auto. Qed.

Lemma node_requires : forall o sn nd n, result (tr_node o sn) = Some nd ->
  (In (reference_of n) (decl_requires (DNode o nd)) <-> mentions (XNode sn) n).
Proof.
  intros o sn nd n H. unfold tr_node in H. apply obind_some in H. destruct H as (s & E & H). inversion H; subst. clear H.
  cbn [decl_requires n_blocks n_stmts]. rewrite in_app_iff. fold (has (reference_of n) s).
  rewrite (stmts_gather _ _ _ (reference_outer n) _ _ _ E). unfold has at 1. cbn [tst0 t_blocks t_stmts map flat_map In].
  rewrite !map_app, !decl_names. fold (node_vars sn). unfold mentions. cbn [expressions].
  assert (X : forall i, match i with XDef _ e | XAssert e => e end = right_side i) by (intros []; reflexivity).
  split.
  - intros [[[]|[]]|(i & J & K)]. exists (right_side i). split; [apply in_map_iff; exists i; rewrite X; auto|]. destruct n; exact K.
  - intros (e & J & K). apply in_map_iff in J. destruct J as (i & <- & J). rewrite X in K. right. exists i. split; auto. destruct n; exact K.
Qed.

Lemma const_requires : forall e e' s n, result (tr false [] e 0 tst0) = Some (e', s) -> t_stmts s = [] -> t_blocks s = [] ->
  (In (reference_of n) (expr_requires e') <-> exists a, In a [e] /\ match n with Constant x => In x (names a) /\ True | Node g => In g (callees a) end).
Proof.
  intros e e' s n E Es Eb. pose proof (tr_gathers _ _ _ (reference_outer n) _ _ _ _ _ E) as G. unfold has in G. rewrite Es, Eb in G. cbn in G.
  assert (Q : needs_in [] (reference_of n) (names e) (callees e) <-> match n with Constant x => In x (names e) /\ True | Node g => In g (callees e) end).
  { destruct n; cbn; tauto. }
  split.
  - intros J. exists e. split; [cbn; auto|]. apply Q. tauto.
  - intros (a & [<-|[]] & K). tauto.
Qed.
