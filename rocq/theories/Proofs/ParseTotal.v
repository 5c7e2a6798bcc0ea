(** * The parser always answers. *)
From Coq Require Import String Ascii List ZArith Bool Arith Lia.
From Verif Require Import Model.Base Model.Scalar Model.Ast Model.Options Model.Surface Model.Parse.
From Verif Require Import Spec.GrammarSpec Proofs.ParseFacts Proofs.ParseExpr Proofs.ParseLists Proofs.ParseSound Proofs.ParseComplete.
Import ListNotations.
Local Open Scope string_scope.
Local Open Scope list_scope.

Lemma kw_total : forall s l, p_kw s l <> Stuck.
Proof. intros s [|[x|k|d j|d g] l]; cbn; try discriminate. now destruct (_ =? _). Qed.
Lemma punct_total : forall c l, p_punct c l <> Stuck.
Proof. intros c [|[x|k|d j|d g] l]; cbn; try discriminate. now destruct (_ =? _)%char. Qed.
Lemma ident_total : forall l, p_ident l <> Stuck.
Proof. intros [|[x|k|d j|d g] l]; cbn; try discriminate. now destruct (usable x). Qed.
Lemma lit_total : forall l, p_lit l <> Stuck.
Proof.
  intros [|[x|[n|f|s|]|c j|d g] l]; cbn; try discriminate.
  - destruct (x =? "true"); [discriminate|]. now destruct (x =? "false").
  - destruct l as [|[x|[n|f|s|]|c' j'|d g] l]; try discriminate; now destruct (_ =? _)%char.
Qed.
Lemma group_total : forall d l, p_group d l <> Stuck.
Proof. intros d l. destruct d, l as [|[x|k|c j|[| |] g] l]; cbn; discriminate. Qed.
Lemma base_total : forall l, p_base l <> Stuck.
Proof.
  intros l. unfold p_base. destruct (peek_kw "int" l), (peek_kw "bool" l), (peek_kw "float" l), (peek_ident l); try discriminate;
    apply pbind_not_stuck; try discriminate; try apply kw_total; apply ident_total.
Qed.
Lemma type_total : forall l, p_type l <> Stuck.
Proof.
  intros l. unfold p_type. apply pbind_not_stuck; [apply base_total|]. intros b r _. apply pbind_not_stuck; [|discriminate].
  unfold p_on_clock. destruct (peek_kw "when" r); [|destruct (peek_kw "whenot" r); [|discriminate]];
    (apply pbind_not_stuck; [apply kw_total|intros ? ? _]; apply pbind_not_stuck; [apply ident_total|discriminate]).
Qed.
Lemma idents_total : forall n l, length l <= n -> sep_more n p_ident p_comma l <> Stuck.
Proof.
  induction n as [|n IH]; intros l L; cbn [sep_more].
  - destruct l; [cbn; discriminate|cbn in L; lia].
  - pose proof (punct_total ","%char l) as Q. unfold p_comma. destruct (p_punct ","%char l) as [x r| |] eqn:E; try discriminate; [|contradiction].
    apply p_punct_parsed in E. destruct E as (j & ->). cbn in L. apply pbind_not_stuck; [apply ident_total|]. intros a r1 E. apply p_ident_parsed in E.
    destruct E as (-> & _). cbn in L. apply pbind_not_stuck; [apply IH; lia|discriminate].
Qed.
Lemma args_total : forall l, p_args l <> Stuck.
Proof.
  intros l. unfold p_args, p_decls. apply pbind_not_stuck.
  - apply pbind_not_stuck; [apply ident_total|]. intros a r _. apply pbind_not_stuck; [apply idents_total; lia|discriminate].
  - intros a r _. apply pbind_not_stuck; [apply punct_total|]. intros x r1 _. apply pbind_not_stuck; [apply type_total|discriminate].
Qed.

Lemma list_total : forall A (item : parser A) c d m l, total_at m item -> shrinks item -> weights l <= m -> p_list d item (p_punct c) l <> Stuck.
Proof.
  intros A item c d m l T D L. unfold p_list. apply pbind_not_stuck; [apply group_total|]. intros g r E. apply p_group_parsed in E. subst l.
  rewrite weights_cons, weight_group in L. apply pbind_not_stuck; [|discriminate]. eapply terminated_total; eauto; lia.
Qed.
Lemma interface_total : forall l, p_interface l <> Stuck.
Proof.
  intros l. unfold p_interface, p_semi. apply pbind_not_stuck; [|discriminate]. apply (list_total _ _ _ _ (weights l)); auto.
  - intros l' _. apply args_total.
  - eapply psound_shrinks, args_sound.
Qed.

Lemma positive_shrinks : forall n, shrinks (positive n).
Proof. intros n l e r E. apply positive_sound in E. destruct E as (u & -> & _). rewrite weights_app, app_length. lia. Qed.
Lemma expr_shrinks : forall n, shrinks (p_expr (positive n)).
Proof. intros n. eapply psound_shrinks, p_expr_sound. Qed.

Lemma atomic_total : forall n l, total_at n (p_expr (positive n)) -> weights l <= n -> p_atomic (p_expr (positive n)) l <> Stuck.
Proof.
  intros n l T L. unfold p_atomic. destruct (hint_paren l).
  - apply pbind_not_stuck; [|discriminate]. eapply list_total; eauto. apply expr_shrinks.
  - destruct (peek_lit l). { apply pbind_not_stuck; [apply lit_total|discriminate]. }
    destruct (peek_ident l); [|discriminate]. apply pbind_not_stuck; [apply ident_total|discriminate].
Qed.
Lemma atomic_shrinks : forall n l e r, p_atomic (p_expr (positive n)) l = Parsed e r -> weights r <= weights l.
Proof. intros n l e r E. apply atomic_sound in E; [|apply p_expr_sound]. destruct E as (u & -> & _). rewrite weights_app. lia. Qed.

Ltac kw_step := apply pbind_not_stuck; [apply kw_total|]; let E := fresh "E" in intros ? ? E; apply p_kw_parsed in E; subst;
  repeat match goal with H : context [weights (_ :: _)] |- _ => rewrite weights_cons in H; cbn [weight] in H end.

Lemma positive_total : forall n, total_at n (positive n).
Proof.
  induction n as [|n IH]; intros l L; [lia|]. cbn [positive].
  pose proof (expr_total _ _ IH (positive_shrinks n)) as TX.
  destruct (hint_call l).
  { apply pbind_not_stuck; [apply ident_total|]. intros f r E. apply p_ident_parsed in E. destruct E as (-> & _). rewrite weights_cons in L. cbn [weight] in L.
    apply pbind_not_stuck; [|discriminate]. eapply list_total; eauto; [apply expr_shrinks|lia]. }
  destruct (peek_kw "if" l).
  { kw_step. apply pbind_not_stuck; [apply TX; lia|]. intros c r1 E1. apply expr_shrinks in E1. kw_step.
    apply pbind_not_stuck; [apply TX; lia|]. intros y r3 E3. apply expr_shrinks in E3. kw_step.
    apply pbind_not_stuck; [apply TX; lia|discriminate]. }
  destruct (peek_kw "merge" l).
  { kw_step. apply pbind_not_stuck; [apply atomic_total; auto; lia|]. intros c r1 E1. apply atomic_shrinks in E1.
    apply pbind_not_stuck; [apply atomic_total; auto; lia|]. intros y r3 E3. apply atomic_shrinks in E3.
    apply pbind_not_stuck; [apply atomic_total; auto; lia|discriminate]. }
  destruct (peek_kw "pre" l). { kw_step. apply pbind_not_stuck; [apply IH; lia|discriminate]. }
  destruct (peek_punct "-"%char l).
  { apply pbind_not_stuck; [apply punct_total|]. intros x r E. apply p_punct_parsed in E. destruct E as (j & ->). rewrite weights_cons in L. cbn [weight] in L.
    apply pbind_not_stuck; [apply IH; lia|discriminate]. }
  destruct (peek_kw "not" l). { kw_step. apply pbind_not_stuck; [apply IH; lia|discriminate]. }
  apply atomic_total; auto. lia.
Qed.
Lemma p_expr_total : forall n, total_at n (p_expr (positive n)).
Proof. intros n. apply expr_total; [apply positive_total|apply positive_shrinks]. Qed.

Lemma target_total : forall n, total_at n (p_target n).
Proof.
  induction n as [|n IH]; intros l L; [lia|]. cbn [p_target]. destruct (hint_paren l); apply pbind_not_stuck; try discriminate.
  - eapply list_total; eauto; [|lia]. eapply psound_shrinks, target_sound.
  - apply ident_total.
Qed.
Lemma stmt_total : forall n, total_at n (p_stmt n).
Proof.
  intros n l L. unfold p_stmt. destruct (peek_kw "assert" l).
  - kw_step. apply pbind_not_stuck; [apply p_expr_total; lia|discriminate].
  - apply pbind_not_stuck; [now apply target_total|]. intros t r E. apply (psound_shrinks _ _ _ _ (target_sound n)) in E.
    apply pbind_not_stuck; [apply punct_total|]. intros x r1 E1. apply p_punct_parsed in E1. destruct E1 as (j & ->). rewrite weights_cons in E. cbn [weight] in E.
    apply pbind_not_stuck; [apply p_expr_total; lia|discriminate].
Qed.
Lemma locals_total : forall l, p_locals l <> Stuck.
Proof.
  intros l. unfold p_locals. destruct (peek_kw "var" l); [|discriminate]. apply pbind_not_stuck; [apply kw_total|]. intros x r _.
  unfold p_semi. eapply (until_total _ _ (S (weights r))); try lia.
  - intros l' _. apply args_total.
  - eapply psound_shrinks, args_sound.
Qed.
Lemma node_total : forall n, total_at n (p_node n).
Proof.
  intros n l L. unfold p_node. kw_step.
  apply pbind_not_stuck; [apply ident_total|]. intros f r1 E1. apply p_ident_parsed in E1. destruct E1 as (-> & _). rewrite weights_cons in L. cbn [weight] in L.
  apply pbind_not_stuck; [apply interface_total|]. intros i r2 E2. apply (psound_shrinks _ _ _ _ interface_sound) in E2. kw_step.
  apply pbind_not_stuck; [apply interface_total|]. intros o r4 E4. apply (psound_shrinks _ _ _ _ interface_sound) in E4.
  apply pbind_not_stuck; [apply punct_total|]. intros x r5 E5. apply p_punct_parsed in E5. destruct E5 as (j & ->). rewrite weights_cons in E4. cbn [weight] in E4.
  apply pbind_not_stuck; [apply locals_total|]. intros lo r6 E6. apply (psound_shrinks _ _ _ _ locals_sound) in E6. kw_step.
  apply pbind_not_stuck.
  - unfold p_semi. eapply (until_total _ _ n); try lia; [apply stmt_total|]. eapply psound_shrinks, stmt_sound.
  - intros d r8 _. apply pbind_not_stuck; [apply kw_total|discriminate].
Qed.
Lemma decl_total : forall n, total_at n (p_decl n).
Proof.
  intros n l L. unfold p_decl. destruct (peek_kw "extern" l); [|destruct (peek_kw "const" l)].
  - unfold p_extern. kw_step. destruct (peek_kw "const" r).
    + kw_step. apply pbind_not_stuck; [apply ident_total|]. intros x r1 _. apply pbind_not_stuck; [apply punct_total|]. intros y r2 _.
      apply pbind_not_stuck; [apply type_total|discriminate].
    + kw_step. apply pbind_not_stuck; [apply ident_total|]. intros x r1 _. apply pbind_not_stuck; [apply interface_total|]. intros y r2 _.
      kw_step. apply pbind_not_stuck; [apply interface_total|discriminate].
  - unfold p_const. kw_step. apply pbind_not_stuck; [apply ident_total|]. intros x r1 E. apply p_ident_parsed in E. destruct E as (-> & _).
    apply pbind_not_stuck; [apply punct_total|]. intros y r2 E. apply p_punct_parsed in E. destruct E as (j & ->).
    apply pbind_not_stuck; [apply base_total|]. intros b r3 E. apply (psound_shrinks _ _ _ _ base_sound) in E.
    apply pbind_not_stuck; [apply punct_total|]. intros z r4 E'. apply p_punct_parsed in E'. destruct E' as (j' & ->).
    repeat (rewrite weights_cons in *; cbn [weight] in * ).
    apply pbind_not_stuck; [apply p_expr_total; lia|discriminate].
  - apply pbind_not_stuck; [now apply node_total|discriminate].
Qed.
Lemma attr_total : forall l, p_attr l <> Stuck.
Proof.
  intros l. unfold p_attr. apply pbind_not_stuck; [apply punct_total|]. intros x r _. apply pbind_not_stuck; [apply group_total|]. intros g r1 _.
  apply pbind_not_stuck; [apply ident_total|]. intros y g1 _. apply pbind_not_stuck.
  { unfold p_params. destruct g1 as [|[x1|k1|c1 j1|[| |] v] g1]; try discriminate. apply pbind_not_stuck; [|discriminate].
    eapply (list_total _ _ ","%char DBracket _ _); [|eapply psound_shrinks, ident_sound|apply le_n]. intros l' _. apply ident_total. }
  intros ps g2 _. apply pbind_not_stuck.
  { unfold p_targets. destruct g2 as [|[x1|k1|c1 j1|[| |] v] g2]; try discriminate. apply pbind_not_stuck; [|discriminate].
    eapply (list_total _ _ ","%char DParen _ _); [|eapply psound_shrinks, lit_sound|apply le_n]. intros l' _. apply lit_total. }
  intros ts [|t g3] _; discriminate.
Qed.
Lemma attrdecl_total : forall k n l, weights l < n -> length l <= k -> p_attrdecl k n l <> Stuck.
Proof.
  induction k as [|k IH]; intros n l L K; cbn [p_attrdecl]; destruct (peek_punct "#"%char l) eqn:P.
  - destruct l; [discriminate|cbn in K; lia].
  - apply pbind_not_stuck; [now apply decl_total|discriminate].
  - apply pbind_not_stuck; [apply attr_total|]. intros a r E. apply attr_sound in E. destruct E as (u & -> & W & _).
    unfold attr_words in W. apply spells_sym1 in W. destruct W as (j & u' & -> & _). rewrite weights_app in L. cbn [app length] in K. rewrite app_length in K.
    apply pbind_not_stuck; [apply IH; lia|discriminate].
  - apply pbind_not_stuck; [now apply decl_total|discriminate].
Qed.
Theorem prog_total : forall l, p_prog l <> Stuck.
Proof.
  intros l. unfold p_prog, p_semi. apply pbind_not_stuck; [|discriminate].
  eapply (terminated_total _ _ (S (weights l))); try lia.
  - intros l' _. apply attrdecl_total; lia.
  - eapply (psound_shrinks _ tidy_attrdecl attrdecl_words). intros l' a r E. eapply attrdecl_sound; eauto.
Qed.
