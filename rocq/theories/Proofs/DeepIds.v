(** Each register and each call site occurs once in the source statements,
    operands of register reads included. *)
From Coq Require Import String List ZArith Bool Arith Lia Permutation.
From Verif Require Import Model.Base Model.Scalar Model.Value Model.Ast Model.Errors Model.Interp Model.Options Model.Surface Model.Translate
  Spec.StepSpec Spec.CausalitySpec Spec.CoreSem Spec.TranslateSpec Proofs.AstInd Proofs.OutBasics Proofs.CoreProofs Proofs.TranslateStruct.
Import ListNotations.

Local Arguments seq : simpl never.

Fixpoint deep_regs (e : expr) : list nat :=
  match e with
  | ELit _ | EVar _ _ | EGlobal _ => []
  | EFetch id i n => id :: (match i with Some i => deep_regs i | None => [] end) ++ deep_regs n
  | ETuple l => flat_map deep_regs l
  | EPre e | EParen e | EUn _ e | ESub _ _ e => deep_regs e
  | EBin _ a b | ECmp _ a b | EClock _ a b | ELater _ a b | EFlip _ a b => deep_regs a ++ deep_regs b
  | EIf a b c | EMerge a b c => deep_regs a ++ deep_regs b ++ deep_regs c
  end.
Fixpoint deep_calls (e : expr) : list nat :=
  match e with
  | ELit _ | EVar _ _ | EGlobal _ => []
  | EFetch id i n => (match i with Some i => deep_calls i | None => [] end) ++ deep_calls n
  | ETuple l => flat_map deep_calls l
  | EPre e | EParen e | EUn _ e => deep_calls e
  | ESub _ id e => id :: deep_calls e
  | EBin _ a b | ECmp _ a b | EClock _ a b | ELater _ a b | EFlip _ a b => deep_calls a ++ deep_calls b
  | EIf a b c | EMerge a b c => deep_calls a ++ deep_calls b ++ deep_calls c
  end.

Record deep (s s' : tst) (es : list expr) : Prop := mkDeep {
  dp_le : t_regs s <= t_regs s';
  dp_bl : exists bl, t_blocks s' = t_blocks s ++ bl;
  dp_regs : Permutation (flat_map deep_regs es) (seq (t_regs s) (t_regs s' - t_regs s));
  dp_calls : Permutation (flat_map deep_calls es) (seq (length (t_blocks s)) (length (t_blocks s') - length (t_blocks s)))
}.

Lemma deep_nil : forall s, deep s s [].
Proof. intros s. split; auto; rewrite ?Nat.sub_diag; auto. exists []. rewrite app_nil_r. auto. Qed.

Lemma seq_join : forall a b c, a <= b -> b <= c -> seq a (c - a) = seq a (b - a) ++ seq b (c - b).
Proof. intros a b c H K. replace (c - a) with ((b - a) + (c - b)) by lia. rewrite seq_app. f_equal. f_equal. lia. Qed.

Lemma deep_app : forall s s1 s2 es es', deep s s1 es -> deep s1 s2 es' -> deep s s2 (es ++ es').
Proof.
  intros s s1 s2 es es' [A (bl & B) C D] [A' (bl' & B') C' D']. split.
  - lia.
  - exists (bl ++ bl'). rewrite B', B, app_assoc. auto.
  - rewrite flat_map_app, C, C', <- seq_join; auto.
  - rewrite flat_map_app, D, D', <- seq_join; auto; rewrite ?B', ?B, !app_length; lia.
Qed.

Lemma deep_perm : forall s s' es es', deep s s' es ->
  Permutation (flat_map deep_regs es) (flat_map deep_regs es') ->
  Permutation (flat_map deep_calls es) (flat_map deep_calls es') -> deep s s' es'.
Proof. intros s s' es es' [A B C D] H K. split; auto; [rewrite <- H; auto|rewrite <- K; auto]. Qed.

Lemma deep_sub : forall s s' e f d, deep s s' [e] -> deep s (add_block f s') [ESub d (length (t_blocks s')) e].
Proof.
  intros s s' e f d [A (bl & B) C D]. split; cbn [add_block t_regs t_blocks]; auto.
  - exists (bl ++ [f]). rewrite B, app_assoc. auto.
  - cbn in *. rewrite app_length. cbn. rewrite D. rewrite (seq_join (length (t_blocks s)) (length (t_blocks s')) (length (t_blocks s') + 1)); [|rewrite B, app_length; lia|lia].
    replace (length (t_blocks s') + 1 - length (t_blocks s')) with 1 by lia. change (seq (length (t_blocks s')) 1) with [length (t_blocks s')]. rewrite Permutation_app_comm. auto.
Qed.

Lemma deep_stmt : forall s s' es i, deep s s' es -> deep s (add_stmt i s') es.
Proof. intros s s' es i [A B C D]. split; auto. Qed.
Lemma deep_flip : forall s s' es, deep s s' es -> deep s (new_flip s') es.
Proof. intros s s' es [A B C D]. split; auto. Qed.

Lemma deep_before : forall s s' i n, deep (new_reg s) s' (opt_list i ++ [n]) -> deep s s' [EFetch (t_regs s) i n].
Proof.
  intros s s' i n [A B C D]. cbn [new_reg t_regs t_blocks] in *. split; auto; [lia| |].
  - cbn [flat_map deep_regs]. rewrite app_nil_r. rewrite (seq_join (t_regs s) (S (t_regs s))) by lia.
    replace (S (t_regs s) - t_regs s) with 1 by lia. change (seq (t_regs s) 1) with [t_regs s]. cbn [app]. constructor. rewrite <- C.
    destruct i; cbn [opt_list app flat_map]; rewrite ?app_nil_r; auto.
  - rewrite <- D. destruct i; cbn [opt_list app flat_map deep_calls]; rewrite ?app_nil_r; auto.
Qed.
Lemma deep_after : forall s s' i n, deep s s' (opt_list i ++ [n]) -> deep s (new_reg s') [EFetch (t_regs s') i n].
Proof.
  intros s s' i n [A B C D]. cbn [new_reg t_regs t_blocks] in *. split; cbn [new_reg t_regs t_blocks]; auto; try lia.
  - cbn [flat_map deep_regs]. rewrite ?app_nil_r. rewrite (seq_join (t_regs s) (t_regs s') (S (t_regs s'))) by lia.
    replace (S (t_regs s') - t_regs s') with 1 by lia. change (seq (t_regs s') 1) with [t_regs s'].
    rewrite (Permutation_app_comm _ [t_regs s']). cbn [app]. constructor. rewrite <- C.
    destruct i; cbn [opt_list app flat_map]; rewrite ?app_nil_r; auto.
  - rewrite <- D. destruct i; cbn [opt_list app flat_map deep_calls]; rewrite ?app_nil_r; auto.
Qed.

Section Deep.
  Variable f : sexpr -> nat -> tst -> out (expr * tst).
  Definition deepwise (e : sexpr) : Prop := forall d s r s', result (f e d s) = Some (r, s') -> deep s s' [r].

  Lemma tr_elems_deep : forall l, Forall deepwise l -> forall d s r s',
    result (tr_elems f l d s) = Some (r, s') -> deep s s' r.
  Proof.
    induction 1 as [|e l H _ IH]; intros d s r s' E; cbn in E; inv_out; [apply deep_nil|].
    change (e0 :: l0) with ([e0] ++ l0). eapply deep_app; eauto.
  Qed.

  Lemma tr_left_deep : forall O (compose : O -> expr -> expr -> expr),
    (forall op a b, deep_regs (compose op a b) = deep_regs a ++ deep_regs b) ->
    (forall op a b, deep_calls (compose op a b) = deep_calls a ++ deep_calls b) ->
    forall l, Forall (fun p => deepwise (snd p)) l -> forall s0 acc d s r s', deep s0 s [acc] ->
    result (tr_left f compose acc l d s) = Some (r, s') -> deep s0 s' [r].
  Proof.
    intros O compose C1 C2. induction 1 as [|[op e] l H _ IH]; intros s0 acc d s r s' P E; cbn in E; inv_out; auto.
    eapply IH; [|exact E]. apply H in E0. pose proof (deep_app _ _ _ _ _ P E0) as Q.
    eapply deep_perm; [exact Q| |]; simpl; rewrite ?C1, ?C2, ?app_nil_r; auto.
  Qed.

  Lemma tr_right_deep : forall bump compose,
    (forall d i a b s0 s r s', deep s0 s [b; a] -> compose d i a b s = (r, s') -> deep s0 s' [r]) ->
    forall l, Forall deepwise l -> forall i d s r s',
    result (tr_right f bump compose i l d s) = Some (r, s') -> deep s s' (opt_list r).
  Proof.
    intros bump compose C. induction 1 as [|e l H _ IH]; intros i d s r s' E; cbn in E; inv_out; [apply deep_nil|].
    apply IH in E0. apply H in E1. pose proof (deep_app _ _ _ _ _ E0 E1) as Q.
    destruct o; simpl in Q.
    - destruct (compose d i e0 e1 t0) as [x y] eqn:Ec. inv_out. simpl. eapply C; eauto.
    - inv_out. auto.
  Qed.
End Deep.

Lemma swap_deep : forall s s' a b, deep s s' [b; a] -> deep s s' [a; b].
Proof. intros s s' a b P. eapply deep_perm; [exact P| |]; simpl; rewrite ?app_nil_r; apply Permutation_app_comm. Qed.
Lemma later_deep : forall d i a b s0 s r s', deep s0 s [b; a] -> later d i a b s = (r, s') -> deep s0 s' [r].
Proof.
  intros d i a b s0 s r s' P E. inversion E; subst. apply swap_deep in P.
  eapply deep_perm; [exact P| |]; simpl; rewrite ?app_nil_r; auto.
Qed.
Lemma fby_registers_deep : forall d i a b s0 s r s', deep s0 s [b; a] -> fby_registers d i a b s = (r, s') -> deep s0 s' [r].
Proof.
  intros d i a b s0 s r s' P E. inversion E; subst. apply deep_stmt, deep_stmt. apply (deep_after s0 s (Some a) b).
  apply swap_deep in P. auto.
Qed.
Lemma then_flips_deep : forall d i a b s0 s r s', deep s0 s [b; a] -> then_flips d i a b s = (r, s') -> deep s0 s' [r].
Proof.
  intros d i a b s0 s r s' P E. inversion E; subst. apply deep_flip. apply swap_deep in P.
  eapply deep_perm; [exact P| |]; simpl; rewrite ?app_nil_r; auto.
Qed.

Ltac dsame P := eapply deep_perm; [exact P| |]; simpl; rewrite ?app_nil_r, ?app_assoc; auto.

Lemma paren_deep : forall s s' es b, deep s s' es -> deep s s' [paren es b].
Proof. intros s s' es b P. unfold paren. destruct es as [|e [|e' es]]; try destruct b; dsame P. Qed.

Lemma tr_deep : forall u locals e, deepwise (tr u locals) e.
Proof.
  intros u locals e. induction e using sexpr_ind'; intros d s r s' E; cbn [tr] in E.
  - inv_out. assert (P := deep_nil s'). destruct l; unfold tr_lit in E0; try destruct (in_i64 _); inv_out; dsame P.
  - inv_out. assert (P := deep_nil s'). unfold tr_var. destruct (existsb _ _); dsame P.
  - inv_out. apply paren_deep. eapply tr_elems_deep; eauto.
  - inv_out. apply deep_sub. apply paren_deep. eapply tr_elems_deep; eauto.
  - inv_out. assert (P := IHe _ _ _ _ E0). dsame P.
  - inv_out. assert (P := IHe _ _ _ _ E0). dsame P.
  - destruct u; inv_out.
    + apply deep_stmt, deep_stmt. apply (deep_before s t None e0). apply IHe in E0. auto.
    + assert (P := IHe _ _ _ _ E0). dsame P.
  - inv_out. apply IHe1 in E0. apply IHe2 in E1. apply IHe3 in E2.
    pose proof (deep_app _ _ _ _ _ (deep_app _ _ _ _ _ E0 E1) E2) as P. dsame P.
  - inv_out. apply IHe1 in E0. apply IHe2 in E1. apply IHe3 in E2.
    pose proof (deep_app _ _ _ _ _ (deep_app _ _ _ _ _ E0 E1) E2) as P. dsame P.
  - inv_out. eapply tr_left_deep; [| |eauto|eapply IHe; eauto|exact E]; auto.
  - inv_out. destruct l as [|[op e1] [|[op' e2] l]]; inv_out; eauto.
    inversion H; subst. cbn [snd] in *. apply IHe in E0.
    match goal with X : deepwise _ e1 |- _ => apply X in E1 end.
    pose proof (deep_app _ _ _ _ _ E0 E1) as P. dsame P.
  - inv_out. eapply tr_left_deep; [| |eauto|eapply IHe; eauto|exact E]; auto.
  - inv_out. assert (G : deep s t (opt_list o)).
    { destruct u; (eapply tr_right_deep; [|exact H|exact E0]); [apply fby_registers_deep|apply later_deep]. }
    apply IHe in E1. pose proof (deep_app _ _ _ _ _ G E1) as P.
    destruct o; simpl in P; [|inv_out; auto].
    destruct u; [eapply (fby_registers_deep d 0)|eapply (later_deep d 0)]; eauto; cbn in E; inv_out; reflexivity.
  - inv_out. assert (G : deep s t (opt_list o)).
    { destruct u; (eapply tr_right_deep; [|exact H|exact E0]); [apply then_flips_deep|apply later_deep]. }
    apply IHe in E1. pose proof (deep_app _ _ _ _ _ G E1) as P.
    destruct o; simpl in P; [|inv_out; auto].
    destruct u; [eapply (then_flips_deep d 0)|eapply (later_deep d 0)]; eauto; cbn in E; inv_out; reflexivity.
Qed.

(** ** Statements *)
Lemma tr_stmts_deep : forall u locals l s s', result (tr_stmts u locals l s) = Some s' ->
  exists st, t_stmts s' = t_stmts s ++ st /\ deep s s' (flat_map stmt_exprs (filter sourced st)).
Proof.
  induction l as [|i l IH]; intros s s' H; cbn [tr_stmts] in H; inv_out.
  - exists []. rewrite app_nil_r. split; auto. apply deep_nil.
  - rename r into s1. apply IH in H. destruct H as (st & Es & D).
    assert (G : exists st', t_stmts s1 = t_stmts s ++ st' /\ deep s s1 (flat_map stmt_exprs (filter sourced st'))).
    { destruct i; cbn [tr_stmt] in E; inv_out.
      - pose proof (tr_deep _ _ _ _ _ _ _ E0) as D0. pose proof (tr_piece _ _ _ _ _ _ _ E0) as (bl & st' & nr & nf & C).
        exists (st' ++ [SLet (tr_target target) e]). destruct C. cbn [add_stmt t_stmts]. rewrite cr_stmts, app_assoc. split; auto.
        apply deep_stmt. rewrite filter_app, cr_sourced. cbn. auto.
      - pose proof (tr_deep _ _ _ _ _ _ _ E0) as D0. pose proof (tr_piece _ _ _ _ _ _ _ E0) as (bl & st' & nr & nf & C).
        exists (st' ++ [SAssert e0]). destruct C. cbn [add_stmt t_stmts]. rewrite cr_stmts, app_assoc. split; auto.
        apply deep_stmt. rewrite filter_app, cr_sourced. cbn. auto. }
    destruct G as (st' & Es' & D'). exists (st' ++ st). rewrite Es, Es', app_assoc. split; auto.
    rewrite filter_app, flat_map_app. eapply deep_app; eauto.
Qed.

Lemma tr_node_deep : forall o sn nd, result (tr_node o sn) = Some nd ->
  Permutation (flat_map deep_regs (flat_map stmt_exprs (filter sourced (n_stmts nd)))) (seq 0 (length (n_regs nd))) /\
  Permutation (flat_map deep_calls (flat_map stmt_exprs (filter sourced (n_stmts nd)))) (seq 0 (length (n_blocks nd))).
Proof.
  intros o sn nd H. unfold tr_node in H. inv_out. rename r into s.
  apply tr_stmts_deep in E. destruct E as (st & Es & [A B C D]). cbn [tst0 t_stmts t_regs t_blocks app length] in *. rewrite !Nat.sub_0_r in *. subst.
  cbn [n_stmts n_regs n_blocks]. rewrite repeat_length. auto.
Qed.
