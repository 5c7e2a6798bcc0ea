(** Simplifications keep the values. *)
From Coq Require Import String List ZArith Bool Arith Lia.
From Coq Require Import Floats.SpecFloat.
From Verif Require Import Model.Base Model.Scalar Model.Value Model.Register Model.Ast Model.Errors Model.Interp Model.Options Model.Surface Model.Translate
  Model.Pipeline Model.Extern
  Spec.StepSpec Spec.SurfaceSem Spec.ProgramSem Spec.SettledSem Spec.SafetySpec Spec.ExternSem Spec.ExternSettled Spec.Laws Spec.Simplify
  Proofs.Settled Proofs.Laws Proofs.ExternExact Proofs.ExternReplace.
Import ListNotations.

Lemma checked_result : forall z s, i64_result Checked z = Ok s -> s = SInt z.
Proof. intros z s. unfold i64_result. destruct (in_i64 z); intros H; inversion H; auto. Qed.

Lemma neutral_right_value : forall op l v w n, neutral_right op l ->
  n = match l with SLInt z => SInt z | SLBool b => SBool b | SLFloat f => SFloat f | _ => SUnit end ->
  val_bin Checked op v (VS (Defined n)) = Ok w -> w = v.
Proof.
  intros op l v w n H E. subst n. unfold val_bin. destruct v as [[s|]|vs]; cbn; try discriminate; [|intros X; inversion X; auto].
  repeat (destruct H as [H|H]; [inversion H; subst; clear H|]); [..|destruct H]; destruct s as [z|f|b|]; cbn; try discriminate; intros X.
  - destruct (i64_result Checked (z + 0)) eqn:R; inversion X. apply checked_result in R. subst. rewrite Z.add_0_r. auto.
  - destruct (i64_result Checked (z - 0)) eqn:R; inversion X. apply checked_result in R. subst. rewrite Z.sub_0_r. auto.
  - destruct (i64_result Checked (z * 1)) eqn:R; inversion X. apply checked_result in R. subst. rewrite Z.mul_1_r. auto.
  - unfold i64_div in X. cbn in X. rewrite Bool.andb_false_r, Z.quot_1_r in X. inversion X. auto.
  - rewrite Bool.andb_true_r in X. inversion X. auto.
  - rewrite Bool.orb_false_r in X. inversion X. auto.
  - rewrite Bool.xorb_false_r in X. inversion X. auto.
Qed.
Lemma neutral_left_value : forall op l v w n, neutral_left op l ->
  n = match l with SLInt z => SInt z | SLBool b => SBool b | SLFloat f => SFloat f | _ => SUnit end ->
  val_bin Checked op (VS (Defined n)) v = Ok w -> w = v.
Proof.
  intros op l v w n H E. subst n. unfold val_bin. destruct v as [[s|]|vs]; cbn; try discriminate; [|intros X; inversion X; auto].
  repeat (destruct H as [H|H]; [inversion H; subst; clear H|]); [..|destruct H]; destruct s as [z|f|b|]; cbn [scalar_bin bind]; try discriminate; intros X.
  - destruct (i64_result Checked (0 + z)) eqn:R; inversion X. apply checked_result in R. subst. auto.
  - destruct (i64_result Checked (1 * z)) eqn:R; inversion X. apply checked_result in R. subst. rewrite Z.mul_1_l. auto.
  - inversion X. auto.
  - inversion X. auto.
  - inversion X. destruct b; auto.
Qed.

Lemma twice_not : forall v u w, val_un Checked Not v = Ok u -> val_un Checked Not u = Ok w -> w = v.
Proof.
  intros [[[z|f|b|]|]|vs] u w A B; cbn in A; try discriminate A; inversion A; subst; cbn in B; inversion B; auto.
  - rewrite Z.lnot_involutive. auto.
  - rewrite Bool.negb_involutive. auto.
Qed.
Lemma twice_neg : forall v u w, val_un Checked Neg v = Ok u -> val_un Checked Neg u = Ok w -> w = v.
Proof.
  intros [[[z|f|b|]|]|vs] u w A B; cbn in A; try discriminate A.
  - destruct (i64_result Checked (- z)) eqn:R; inversion A; subst. apply checked_result in R. subst. cbn in B.
    destruct (i64_result Checked (- - z)) eqn:R; inversion B; subst. apply checked_result in R. subst. rewrite Z.opp_involutive. auto.
  - inversion A; subst. cbn in B. inversion B. destruct f as [[]|[]| |[] m e]; reflexivity.
  - inversion A; subst. cbn in B. inversion B. auto.
Qed.

Lemma then_inv : forall mode glob L rho F N e l t v, sem mode glob L rho F N (XThen e l) t v ->
  exists e', nth_error (e :: l) (position (length l) t) = Some e' /\ sem mode glob L rho F N e' t v.
Proof. intros mode glob L rho F N e l t v X. inversion X; subst. eauto. Qed.

Theorem simpler_refines : forall glob e e', simpler e e' -> refines Checked glob e e'.
Proof.
  intros glob e e' S L rho F N t.
  assert (Lit : forall l u, sem Checked glob L rho F N (XLit l) t u ->
    u = VS (Defined match l with SLInt z => SInt z | SLBool b => SBool b | SLFloat f => SFloat f | _ => SUnit end)) by (intros l u H; inversion H; auto).
  destruct S as [op l e H|op l e H|e|e|a b|a b|a b c|a b c]; split.
  - intros v X. inversion X; subst. match goal with B : bins _ _ _ _ _ _ _ _ _ _ |- _ => inversion B; subst; clear B end.
    match goal with B : bins _ _ _ _ _ _ _ [] _ _ |- _ => inversion B; subst; clear B end.
    match goal with J : sem _ _ _ _ _ _ (XLit _) _ _ |- _ => apply Lit in J; subst end.
    match goal with V : val_bin _ _ _ _ = Ok _ |- _ => eapply neutral_right_value in V; eauto; subst; auto end.
  - rewrite st_bin. tauto.
  - intros v X. inversion X; subst. match goal with B : bins _ _ _ _ _ _ _ _ _ _ |- _ => inversion B; subst; clear B end.
    match goal with B : bins _ _ _ _ _ _ _ [] _ _ |- _ => inversion B; subst; clear B end.
    match goal with J : sem _ _ _ _ _ _ (XLit _) _ _ |- _ => apply Lit in J; subst end.
    match goal with V : val_bin _ _ _ _ = Ok _ |- _ => eapply neutral_left_value in V; eauto; subst; auto end.
  - rewrite st_bin. cbn. tauto.
  - intros v X. inversion X; subst. match goal with J : sem _ _ _ _ _ _ (XNot _) _ _ |- _ => inversion J; subst end.
    match goal with A : val_un _ _ ?x = Ok ?y, B : val_un _ _ ?y = Ok ?z |- _ => rewrite (twice_not _ _ _ A B); auto end.
  - auto.
  - intros v X. inversion X; subst. match goal with J : sem _ _ _ _ _ _ (XNeg _) _ _ |- _ => inversion J; subst end.
    match goal with A : val_un _ _ ?x = Ok ?y, B : val_un _ _ ?y = Ok ?z |- _ => rewrite (twice_neg _ _ _ A B); auto end.
  - auto.
  - intros v X. inversion X; subst. match goal with J : sem _ _ _ _ _ _ (XLit _) _ _ |- _ => apply Lit in J; subst end.
    match goal with V : val_ifx _ _ _ = Ok _ |- _ => cbn in V; inversion V; subst; auto end.
  - cbn. tauto.
  - intros v X. inversion X; subst. match goal with J : sem _ _ _ _ _ _ (XLit _) _ _ |- _ => apply Lit in J; subst end.
    match goal with V : val_ifx _ _ _ = Ok _ |- _ => cbn in V; inversion V; subst; auto end.
  - cbn. tauto.
  - intros v X. apply then_inv in X. destruct X as (e0 & A & B). cbn [length] in *.
    assert (Q : position 1 t = 0 \/ position 1 t = 1) by (unfold position; lia). destruct Q as [Q|Q]; rewrite Q in A; cbn in A; inversion A; subst.
    + apply then_inv in B. destruct B as (e1 & A1 & B). cbn [length] in *. rewrite Q in A1. cbn in A1. inversion A1; subst. eapply sem_then; [cbn [length]; rewrite Q; reflexivity|exact B].
    + eapply sem_then; [cbn [length]; rewrite Q; reflexivity|exact B].
  - rewrite !st_then. cbn [length]. intros X k e' J G. destruct k as [|[|k]]; cbn in J; try (destruct k; discriminate J); inversion J; subst.
    + destruct (X 0 (XThen e' [b]) eq_refl G) as [Y _]. rewrite st_then in Y. apply (Y 0 e' eq_refl). exact G.
    + apply (X 1 e' eq_refl). exact G.
  - intros v X. apply then_inv in X. destruct X as (e0 & A & B). cbn [length] in *.
    assert (Q : position 1 t = 0 \/ position 1 t = 1) by (unfold position; lia). destruct Q as [Q|Q]; rewrite Q in A; cbn in A; inversion A; subst.
    + eapply sem_then; [cbn [length]; rewrite Q; reflexivity|exact B].
    + apply then_inv in B. destruct B as (e1 & A1 & B). cbn [length] in *. rewrite Q in A1. cbn in A1. inversion A1; subst. eapply sem_then; [cbn [length]; rewrite Q; reflexivity|exact B].
  - rewrite !st_then. cbn [length]. intros X k e' J G. destruct k as [|[|k]]; cbn in J; try (destruct k; discriminate J); inversion J; subst.
    + apply (X 0 e' eq_refl). exact G.
    + destruct (X 1 (XThen b [e']) eq_refl G) as [Y _]. rewrite st_then in Y. apply (Y 1 e' eq_refl). exact G.
Qed.

Theorem simpler_runs : forall glob ext p q l m, Forall2 (rewritten_decl (fun a b => simpler a b \/ law a b \/ law b a)) p q ->
  result (pipeline p) = Some l -> result (pipeline q) = Some m -> default_mode p -> (forall x t, constant p x t -> glob x <> None) -> ordinary ext ->
  forall f ins outs, xoutputs Checked glob ext (items_of l) f ins = Ok outs -> xoutputs Checked glob ext (items_of m) f ins = Ok outs.
Proof.
  intros glob ext p q l m H Hp Hq D K X. apply (extern_replaced Checked glob ext ext p q l m); auto.
  eapply kept_rewritten; [|exact H]. intros e e' [S|[S|S]]; [apply simpler_refines; auto|apply (laws_hold Checked glob) in S; tauto|apply (laws_hold Checked glob) in S; tauto].
Qed.
