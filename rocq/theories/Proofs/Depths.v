(** The depths computed by the positivity check. *)
From Coq Require Import String List ZArith Bool Arith Lia Permutation.
From Verif Require Import Model.Base Model.Scalar Model.Ast Model.Errors Model.Interp Model.Options Model.Surface Model.Translate Model.Positivity
  Spec.StepSpec Spec.CoreSem Spec.TranslateSpec Spec.DepthSpec Proofs.AstInd Proofs.OutBasics Proofs.CoreProofs Proofs.TranslateStruct.
Import ListNotations.

(** ** Depths found in analysed expressions *)
Definition uses (es : list expr) (x : ident) (n : nat) : Prop := exists e, In e es /\ occurs (EVar x n) e.
Record deepest (es : list expr) (m m' : depths) : Prop := mkDeepest {
  dd_old : forall x n, lookup x m = Some n -> exists n', lookup x m' = Some n' /\ n <= n';
  dd_new : forall x n, uses es x n -> exists n', lookup x m' = Some n' /\ n <= n';
  dd_only : forall x n, lookup x m' = Some n -> lookup x m = Some n \/ uses es x n
}.

Lemma deepest_nil : forall m, deepest [] m m.
Proof. intros m. split; eauto. intros x n (e & [] & _). Qed.
Lemma deepest_app : forall a b m m1 m2, deepest a m m1 -> deepest b m1 m2 -> deepest (a ++ b) m m2.
Proof.
  intros a b m m1 m2 [A1 A2 A3] [B1 B2 B3]. split.
  - intros x n L. destruct (A1 _ _ L) as (n1 & L1 & H1). destruct (B1 _ _ L1) as (n2 & L2 & H2). exists n2. split; auto. lia.
  - intros x n (e & I & O). apply in_app_iff in I. destruct I as [I|I].
    + destruct (A2 x n) as (n1 & L1 & H1); [exists e; auto|]. destruct (B1 _ _ L1) as (n2 & L2 & H2). exists n2. split; auto. lia.
    + apply B2. exists e; auto.
  - intros x n L. destruct (B3 _ _ L) as [L1|(e & I & O)].
    + destruct (A3 _ _ L1) as [|(e & I & O)]; auto. right. exists e. rewrite in_app_iff. auto.
    + right. exists e. rewrite in_app_iff. auto.
Qed.
Lemma deepest_same : forall a b m m', deepest a m m' -> (forall x n, uses a x n <-> uses b x n) -> deepest b m m'.
Proof.
  intros a b m m' [A B C] H. split; auto.
  - intros x n U. apply B, H; auto.
  - intros x n L. destruct (C _ _ L); auto. right. apply H; auto.
Qed.
Lemma uses_children : forall e, (forall x n, e <> EVar x n) -> forall x n, uses (children e) x n <-> uses [e] x n.
Proof.
  intros e N x n. split.
  - intros (c & I & O). exists e. split; cbn; auto. eapply occ_child; eauto.
  - intros (e' & [<-|[]] & O). inversion O; subst; [exfalso; eapply N; eauto|]. exists c. auto.
Qed.

Lemma pos_deepest : forall e cur m m', result (pos e cur m) = Some m' -> deepest [e] m m'.
Proof.
  intros e. induction e using expr_ind'; intros cur m m' E;
    cbn [Positivity.pos] in E.
  - inv_out. apply (deepest_same (children (ELit l))); [apply deepest_nil|]. apply uses_children. discriminate.
  - destruct (d <=? cur); inv_out. unfold depth_update. split.
    + intros y n L. destruct (lookup x m) as [old|] eqn:Lx.
      * destruct (Nat.leb_spec d old); [eauto|]. cbn. destruct (String.eqb_spec y x); [|eauto]. subst. exists d. split; auto.
        assert (n = old) by congruence. lia.
      * cbn. destruct (String.eqb_spec y x); [|eauto]. congruence.
    + intros y n (e & [<-|[]] & O). inversion O; subst; [|destruct H].
      destruct (lookup x m) as [old|] eqn:Lx; [destruct (Nat.leb_spec d old)|]; [eauto| |]; cbn; rewrite String.eqb_refl; eauto.
    + intros y n L. destruct (lookup x m) as [old|] eqn:Lx; [destruct (Nat.leb_spec d old); auto|]; cbn in L;
        (destruct (String.eqb_spec y x); [inversion L; subst; right; exists (EVar x n); cbn; split; auto; constructor|auto]).
  - inv_out. apply (deepest_same (children (EGlobal x))); [apply deepest_nil|]. apply uses_children. discriminate.
  - apply (deepest_same (children (ETuple l))); [|apply uses_children; discriminate]. cbn [children].
    revert m E.
    induction H as [|e l He _ IH]; intros m E; inv_out; [apply deepest_nil|].
    change (e :: l) with ([e] ++ l). eapply deepest_app; eauto.
  - apply (deepest_same (children (EPre e))); [|apply uses_children; discriminate]. cbn [children]. eauto.
  - apply (deepest_same (children (EParen e))); [|apply uses_children; discriminate]. cbn [children]. eauto.
  - apply (deepest_same (children (EBin op e1 e2))); [|apply uses_children; discriminate]. cbn [children]. inv_out.
    change [e1; e2] with ([e1] ++ [e2]). eapply deepest_app; eauto.
  - apply (deepest_same (children (EUn op e))); [|apply uses_children; discriminate]. cbn [children]. eauto.
  - apply (deepest_same (children (ECmp op e1 e2))); [|apply uses_children; discriminate]. cbn [children]. inv_out.
    change [e1; e2] with ([e1] ++ [e2]). eapply deepest_app; eauto.
  - apply (deepest_same (children (EClock pos e1 e2))); [|apply uses_children; discriminate]. cbn [children]. inv_out.
    apply (deepest_same ([e2] ++ [e1])); [eapply deepest_app; eauto|].
    intros x n. split; intros (c & I & O); exists c; cbn in *; tauto.
  - apply (deepest_same (children (ELater d e1 e2))); [|apply uses_children; discriminate]. cbn [children]. inv_out.
    change [e1; e2] with ([e1] ++ [e2]). eapply deepest_app; eauto.
  - apply (deepest_same (children (EFetch id i e))); [|apply uses_children; discriminate]. cbn [children].
    destruct i as [i|].
    + inv_out. eapply deepest_app; eauto.
    + destruct cur; inv_out. cbn [app]. eauto.
  - apply (deepest_same (children (EFlip id e1 e2))); [|apply uses_children; discriminate]. cbn [children]. inv_out.
    change [e1; e2] with ([e1] ++ [e2]). eapply deepest_app; eauto.
  - apply (deepest_same (children (EIf e1 e2 e3))); [|apply uses_children; discriminate]. cbn [children]. inv_out.
    change [e1; e2; e3] with ([e1] ++ [e2] ++ [e3]). eapply deepest_app; [|eapply deepest_app]; eauto.
  - apply (deepest_same (children (EMerge e1 e2 e3))); [|apply uses_children; discriminate]. cbn [children]. inv_out.
    change [e1; e2; e3] with ([e1] ++ [e2] ++ [e3]). eapply deepest_app; [|eapply deepest_app]; eauto.
  - apply (deepest_same (children (ESub d id e))); [|apply uses_children; discriminate]. cbn [children]. eauto.
Qed.

Lemma pos_stmts_deepest : forall l m m', result (pos_stmts l m) = Some m' ->
  deepest (flat_map stmt_exprs (filter sourced l)) m m'.
Proof.
  induction l as [|i l IH]; intros m m' E; cbn [pos_stmts] in E; inv_out; [apply deepest_nil|].
  apply IH in E. destruct i; cbn [pos_stmt filter sourced flat_map stmt_exprs] in *; inv_out; auto;
    (eapply deepest_app; [eapply pos_deepest; eauto|auto]).
Qed.

(** ** Depths in the source *)
Section Source.
  Variable u : bool.
  Variable locals : list ident.
  Variable k : nat.
  Hypothesis Hk : k = if u then 0 else 1.
  Variable x : ident.
  Hypothesis Hx : In x locals.

  Definition placed (e : sexpr) : Prop := forall d s r s', result (tr u locals e d s) = Some (r, s') ->
    forall n, occurs (EVar x n) r <-> exists j, under k x e j /\ n = d + j.

  Lemma occurs_inner : forall e n, (forall x n, e <> EVar x n) -> (occurs (EVar x n) e <-> exists c, In c (children e) /\ occurs (EVar x n) c).
  Proof.
    intros e n N. split.
    - intros O. inversion O; subst; [exfalso; eapply N; eauto|eauto].
    - intros (c & I & O). eapply occ_child; eauto.
  Qed.

  Lemma placed_elems : forall l, Forall placed l -> forall d s es s', result (tr_elems (tr u locals) l d s) = Some (es, s') ->
    forall n, (exists c, In c es /\ occurs (EVar x n) c) <-> exists e j, In e l /\ under k x e j /\ n = d + j.
  Proof.
    induction 1 as [|e l H _ IH]; intros d s es s' E n; cbn in E; inv_out.
    - split; [intros (c & [] & _)|intros (e & j & [] & _)].
    - split.
      + intros (c & [<-|I] & O).
        * apply (H _ _ _ _ E0) in O. destruct O as (j & U & ->). exists e, j. cbn; auto.
        * destruct (proj1 (IH _ _ _ _ E1 n)) as (e' & j & I' & U & ->); eauto. exists e', j. cbn; auto.
      + intros (e' & j & [<-|I] & U & ->).
        * exists e0. split; [cbn; auto|]. apply (H _ _ _ _ E0). eauto.
        * destruct (proj2 (IH _ _ _ _ E1 (d + j))) as (c & I' & O); eauto. exists c. cbn; auto.
  Qed.

  Lemma placed_left : forall O (compose : O -> expr -> expr -> expr), (forall op a b, children (compose op a b) = [a; b]) ->
    forall l, Forall (fun p => placed (snd p)) l -> forall acc d s r s', result (tr_left (tr u locals) compose acc l d s) = Some (r, s') ->
    forall n, occurs (EVar x n) r <-> occurs (EVar x n) acc \/ exists e j, In e (map snd l) /\ under k x e j /\ n = d + j.
  Proof.
    intros O compose C. assert (N : forall op a b y m, compose op a b <> EVar y m).
    { intros op a b y m E. specialize (C op a b). rewrite E in C. discriminate. }
    induction 1 as [|[op e] l H _ IH]; intros acc d s r s' E n; cbn in E; inv_out.
    - split; auto. intros [|(e & j & [] & _)]; auto.
    - rewrite (IH _ _ _ _ _ E n), occurs_inner, C by apply N. cbn [map snd In]. cbn [snd] in H. split.
      + intros [(c & [<-|[<-|[]]] & Oc)|(e' & j & I & U & ->)].
        * left. exact Oc.
        * right. apply (H _ _ _ _ E0) in Oc. destruct Oc as (j & U & ->). exists e, j. auto.
        * right. exists e', j. auto.
      + intros [Oa|(e' & j & [<-|I] & U & ->)].
        * left. exists acc. auto.
        * left. exists e0. split; auto. apply (H _ _ _ _ E0). eauto.
        * right. exists e', j. auto.
  Qed.

  Lemma placed_right : forall bump compose (w : nat -> nat), (forall d i, bump d i = d + w i) ->
    (forall d i a b s r s', compose d i a b s = (r, s') -> (forall n, occurs (EVar x n) r <-> occurs (EVar x n) a \/ occurs (EVar x n) b)) ->
    forall l, Forall placed l -> forall i d s r s', result (tr_right (tr u locals) bump compose i l d s) = Some (r, s') ->
    forall n, (match r with Some r => occurs (EVar x n) r | None => False end) <->
      exists m e j, nth_error l m = Some e /\ under k x e j /\ n = d + w (i + m) + j.
  Proof.
    intros bump compose w B C. induction 1 as [|e l H _ IH]; intros i d s r s' E n; cbn in E; inv_out.
    - split; [tauto|]. intros (m & e & j & X & _). destruct m; discriminate.
    - rewrite B in E1. pose proof (H _ _ _ _ E1 n) as He. pose proof (IH _ _ _ _ _ E0 n) as Hl.
      assert (K : (exists m e' j, nth_error (e :: l) m = Some e' /\ under k x e' j /\ n = d + w (i + m) + j) <->
        occurs (EVar x n) e0 \/ match o with Some r => occurs (EVar x n) r | None => False end).
      { rewrite He, Hl. split.
        - intros ([|m] & e' & j & X & U & ->); cbn in X.
          + inversion X; subst. left. exists j. rewrite Nat.add_0_r. auto.
          + right. exists m, e', j. repeat split; auto. do 3 f_equal. lia.
        - intros [(j & U & ->)|(m & e' & j & X & U & ->)].
          + exists 0, e, j. rewrite Nat.add_0_r. auto.
          + exists (S m), e', j. repeat split; auto. do 3 f_equal. lia. }
      rewrite K. destruct o as [o|].
      + destruct (compose d i e0 o t0) as [r0 s0] eqn:Ec. inv_out. eapply C; eauto.
      + inv_out. tauto.
  Qed.

  Lemma paren_placed : forall es t n, occurs (EVar x n) (paren es t) <-> exists c, In c es /\ occurs (EVar x n) c.
  Proof.
    intros es t n. unfold paren. destruct es as [|e [|e' es]]; try destruct t; apply occurs_inner; discriminate.
  Qed.

  Lemma tr_placed : forall e, placed e.
  Proof.
    intros e. induction e using sexpr_ind'; intros d s r s' E n; cbn [tr] in E.
    - inv_out. assert (K : exists l', r = ELit l') by (destruct l; unfold tr_lit in E0; try destruct (in_i64 _); inv_out; eauto).
      destruct K as (l' & ->). split; [intros O|intros (j & U & _)]; [inversion O as [|? ? I]; destruct I|inversion U].
    - inv_out. unfold tr_var. destruct (existsb (String.eqb x0) locals) eqn:Ex.
      + split.
        * intros O. inversion O as [|? ? I]; subst; [|destruct I]. exists 0. split; [constructor|lia].
        * intros (j & U & ->). inversion U; subst. rewrite Nat.add_0_r. constructor.
      + split.
        * intros O. inversion O as [|? ? I]. destruct I.
        * intros (j & U & ->). inversion U; subst. exfalso. rewrite <- not_true_iff_false in Ex. apply Ex.
          apply existsb_exists. exists x0. split; auto. apply String.eqb_refl.
    - inv_out. rewrite paren_placed, (placed_elems _ H _ _ _ _ E0). split.
      + intros (e & j & I & U & ->). exists j. split; auto. econstructor; eauto.
      + intros (j & U & ->). inversion U; subst. eauto.
    - inv_out. rewrite occurs_inner by discriminate. cbn [children].
      split.
      + intros (c & [<-|[]] & O). apply paren_placed, (placed_elems _ H _ _ _ _ E0) in O. destruct O as (e & j & I & U & ->).
        exists j. split; auto. econstructor; eauto.
      + intros (j & U & ->). inversion U; subst. exists (paren l0 b). split; [cbn; auto|].
        apply paren_placed, (placed_elems _ H _ _ _ _ E0). eauto.
    - inv_out. rewrite occurs_inner by discriminate. cbn [children]. split.
      + intros (c & [<-|[]] & O). apply (IHe _ _ _ _ E0) in O. destruct O as (j & U & ->). exists j. split; auto. constructor; auto.
      + intros (j & U & ->). inversion U; subst. exists e0. split; [cbn; auto|]. apply (IHe _ _ _ _ E0). eauto.
    - inv_out. rewrite occurs_inner by discriminate. cbn [children]. split.
      + intros (c & [<-|[]] & O). apply (IHe _ _ _ _ E0) in O. destruct O as (j & U & ->). exists j. split; auto. constructor; auto.
      + intros (j & U & ->). inversion U; subst. exists e0. split; [cbn; auto|]. apply (IHe _ _ _ _ E0). eauto.
    - assert (K : exists e0 d' s0 s1, result (tr u locals e d' s0) = Some (e0, s1) /\ d' = d + k /\ (children r = [e0]) /\ (forall y m, r <> EVar y m)).
      { rewrite Hk. destruct u; inv_out; do 4 eexists; (split; [eassumption|]); (split; [lia|]); split; try discriminate; reflexivity. }
      destruct K as (e0 & d' & s0 & s1 & K1 & -> & K2 & K3). rewrite occurs_inner, K2 by auto. split.
      + intros (c & [<-|[]] & O). apply (IHe _ _ _ _ K1) in O. destruct O as (j & U & ->). exists (k + j). split; [constructor; auto|lia].
      + intros (j & U & ->). inversion U; subst. exists e0. split; [cbn; auto|]. apply (IHe _ _ _ _ K1). exists n. split; auto. lia.
    - inv_out. rewrite occurs_inner by discriminate. cbn [children]. split.
      + intros (c & [<-|[<-|[<-|[]]]] & O);
          [apply (IHe1 _ _ _ _ E0) in O|apply (IHe2 _ _ _ _ E1) in O|apply (IHe3 _ _ _ _ E2) in O];
          destruct O as (j & U & ->); exists j; (split; auto); (eapply un_if; [|exact U]); cbn; auto.
      + intros (j & U & ->). inversion U as [| | | | | |? ? ? ? ? I U'| | | | | |]; subst. destruct I as [<-|[<-|[<-|[]]]];
          [exists e|exists e0|exists e4]; (split; [cbn; auto|]); [apply (IHe1 _ _ _ _ E0)|apply (IHe2 _ _ _ _ E1)|apply (IHe3 _ _ _ _ E2)]; eauto.
    - inv_out. rewrite occurs_inner by discriminate. cbn [children]. split.
      + intros (c & [<-|[<-|[<-|[]]]] & O);
          [apply (IHe1 _ _ _ _ E0) in O|apply (IHe2 _ _ _ _ E1) in O|apply (IHe3 _ _ _ _ E2) in O];
          destruct O as (j & U & ->); exists j; (split; auto); (eapply un_merge; [|exact U]); cbn; auto.
      + intros (j & U & ->). inversion U as [| | | | | | |? ? ? ? ? I U'| | | | |]; subst. destruct I as [<-|[<-|[<-|[]]]];
          [exists e|exists e0|exists e4]; (split; [cbn; auto|]); [apply (IHe1 _ _ _ _ E0)|apply (IHe2 _ _ _ _ E1)|apply (IHe3 _ _ _ _ E2)]; eauto.
    - inv_out. rewrite (placed_left _ EBin (fun _ _ _ => eq_refl) _ H _ _ _ _ _ E), (IHe _ _ _ _ E0). split.
      + intros [(j & U & ->)|(e' & j & I & U & ->)]; exists j; (split; auto); (eapply un_bin; [|exact U]); cbn; auto.
      + intros (j & U & ->). inversion U as [| | | | | | | |? ? ? ? I U'| | | |]; subst. destruct I as [<-|I]; eauto 8.
    - inv_out. destruct l as [|[op e1] [|[op' e2] l]]; inv_out.
      + rewrite (IHe _ _ _ _ E0). split.
        * intros (j & U & ->). exists j. split; auto. eapply un_cmp; [|exact U]. cbn; auto.
        * intros (j & U & ->). inversion U as [| | | | | | | | |? ? ? ? I U'| | |]; subst. destruct I as [<-|[]]; eauto.
      + inversion H as [|? ? P1 _]; subst. cbn [snd] in P1. rewrite occurs_inner by discriminate. cbn [children]. split.
        * intros (c & [<-|[<-|[]]] & O); [apply (IHe _ _ _ _ E0) in O|apply (P1 _ _ _ _ E1) in O]; destruct O as (j & U & ->); exists j; (split; auto);
            (eapply un_cmp; [|exact U]); cbn; auto.
        * intros (j & U & ->). inversion U as [| | | | | | | | |? ? ? ? I U'| | |]; subst. destruct I as [<-|[<-|[]]].
          -- exists e0. split; [cbn; auto|]. apply (IHe _ _ _ _ E0). eauto.
          -- eexists. split; [right; left; reflexivity|]. apply (P1 _ _ _ _ E1). eauto.
    - inv_out. rewrite (placed_left _ EClock (fun _ _ _ => eq_refl) _ H _ _ _ _ _ E), (IHe _ _ _ _ E0). split.
      + intros [(j & U & ->)|(e' & j & I & U & ->)]; exists j; (split; auto); (eapply un_clock; [|exact U]); cbn; auto.
      + intros (j & U & ->). inversion U as [| | | | | | | | | |? ? ? ? I U'| |]; subst. destruct I as [<-|I]; eauto 8.
    - cbv zeta in E. apply obind_some in E. destruct E as ([acc s1] & E0 & E). apply obind_some in E. destruct E as ([e' s2] & E1 & E).
      assert (C : forall d i a b s r s', (if u then fby_registers else later) d i a b s = (r, s') ->
        forall n, occurs (EVar x n) r <-> occurs (EVar x n) a \/ occurs (EVar x n) b).
      { intros d0 i a b s0 r0 s0' X m. assert (children r0 = [a; b] /\ forall y j, r0 <> EVar y j) as [Y Z].
        { destruct u; cbv [fby_registers later] in X; inversion X; split; try reflexivity; discriminate. }
        rewrite occurs_inner, Y by auto. split; [intros (c & [<-|[<-|[]]] & O); auto|intros [O|O]; eexists; (split; [|exact O]); cbn; auto]. }
      assert (B : forall d i, (if u then fun d (_ : nat) => d else fun d i => d + i) d i = d + (fun i => k * i) i) by (intros; cbv beta; rewrite Hk; destruct u; cbv beta iota; lia).
      pose proof (placed_right _ _ (fun i => k * i) B C _ H _ _ _ _ _ E0 n) as R.
      assert (B0 : (if u then fun d (_ : nat) => d else fun d i => d + i) d 0 = d) by (destruct u; lia). rewrite B0 in E1.
      pose proof (IHe _ _ _ _ E1 n) as R0.
      assert (K : occurs (EVar x n) r <-> occurs (EVar x n) e' \/ match acc with Some r => occurs (EVar x n) r | None => False end).
      { destruct acc as [acc|]; [|inv_out; tauto]. destruct ((if u then fby_registers else later) d 0 e' acc s2) as [r0 s0] eqn:Ec.
        inv_out. eapply C; eauto. }
      rewrite K, R, R0. split.
      + intros [(j & U & ->)|(m & f & j & X & U & ->)].
        * exists (k * 0 + j). split; [|lia]. eapply un_fby; [reflexivity|exact U].
        * exists (k * S m + j). split; [|cbn; lia]. eapply un_fby; [exact X|exact U].
      + intros (j & U & ->). inversion U as [| | | | | | | | | | |? ? i f j' X U'|]; subst. destruct i as [|m]; cbn in X.
        * inversion X; subst. left. exists j'. split; auto. lia.
        * right. exists m, f, j'. repeat split; auto. cbn. lia.
    - cbv zeta in E. apply obind_some in E. destruct E as ([acc s1] & E0 & E). apply obind_some in E. destruct E as ([e' s2] & E1 & E).
      assert (C : forall d i a b s r s', (if u then then_flips else later) d i a b s = (r, s') ->
        forall n, occurs (EVar x n) r <-> occurs (EVar x n) a \/ occurs (EVar x n) b).
      { intros d0 i a b s0 r0 s0' X m. assert (children r0 = [a; b] /\ forall y j, r0 <> EVar y j) as [Y Z].
        { destruct u; cbv [then_flips later] in X; inversion X; split; try reflexivity; discriminate. }
        rewrite occurs_inner, Y by auto. split; [intros (c & [<-|[<-|[]]] & O); auto|intros [O|O]; eexists; (split; [|exact O]); cbn; auto]. }
      assert (B : forall d i, (fun d (_ : nat) => d) d i = d + (fun _ => 0) i) by (intros; cbv beta; lia).
      pose proof (placed_right _ _ (fun i => 0) B C _ H _ _ _ _ _ E0 n) as R.
      pose proof (IHe _ _ _ _ E1 n) as R0.
      assert (K : occurs (EVar x n) r <-> occurs (EVar x n) e' \/ match acc with Some r => occurs (EVar x n) r | None => False end).
      { destruct acc as [acc|]; [|inv_out; tauto]. destruct ((if u then then_flips else later) d 0 e' acc s2) as [r0 s0] eqn:Ec.
        inv_out. eapply C; eauto. }
      rewrite K, R, R0. split.
      + intros [(j & U & ->)|(m & f & j & X & U & ->)]; exists j; (split; [|lia]).
        * eapply un_then; [left; reflexivity|exact U].
        * eapply un_then; [right; eapply nth_error_In; exact X|exact U].
      + intros (j & U & ->). inversion U as [| | | | | | | | | | | |? ? f j' X U']; subst. destruct X as [<-|X].
        * left. eauto.
        * right. apply In_nth_error in X. destruct X as (m & X). exists m, f, j. repeat split; auto.
  Qed.
End Source.

Lemma under_zero : forall x e n, under 0 x e n -> n = 0.
Proof. induction 1; auto; lia. Qed.

(** In default mode no register is created. *)
Definition keeps (f : sexpr -> nat -> tst -> out (expr * tst)) (e : sexpr) : Prop :=
  forall d s r s', result (f e d s) = Some (r, s') -> t_regs s' = t_regs s.
Section Keeps.
  Variable f : sexpr -> nat -> tst -> out (expr * tst).
  Lemma elems_keeps : forall l, Forall (keeps f) l -> forall d s r s', result (tr_elems f l d s) = Some (r, s') -> t_regs s' = t_regs s.
  Proof. induction 1 as [|e l H _ IH]; intros d s r s' E; cbn in E; inv_out; auto. apply H in E0. apply IH in E1. congruence. Qed.
  Lemma left_keeps : forall O (compose : O -> expr -> expr -> expr) l, Forall (fun p => keeps f (snd p)) l ->
    forall acc d s r s', result (tr_left f compose acc l d s) = Some (r, s') -> t_regs s' = t_regs s.
  Proof. induction 1 as [|[op e] l H _ IH]; intros acc d s r s' E; cbn in E; inv_out; auto. apply H in E0. apply IH in E. congruence. Qed.
  Lemma right_keeps : forall bump l, Forall (keeps f) l ->
    forall i d s r s', result (tr_right f bump later i l d s) = Some (r, s') -> t_regs s' = t_regs s.
  Proof.
    induction 1 as [|e l H _ IH]; intros i d s r s' E; cbn in E; inv_out; auto. apply H in E1. apply IH in E0.
    destruct o; cbn in E; inv_out; congruence.
  Qed.
End Keeps.
Lemma tr_keeps : forall locals e, keeps (tr false locals) e.
Proof.
  intros locals e. induction e using sexpr_ind'; intros d s r s' E; cbn [tr] in E; inv_out; auto.
  - eapply elems_keeps; eauto.
  - cbn. eapply elems_keeps; eauto.
  - eauto.
  - eauto.
  - eauto.
  - apply IHe1 in E0. apply IHe2 in E1. apply IHe3 in E2. congruence.
  - apply IHe1 in E0. apply IHe2 in E1. apply IHe3 in E2. congruence.
  - apply IHe in E0. apply (left_keeps _ _ _ _ H) in E. congruence.
  - destruct l as [|[op e1] [|[op' e2] l]]; inv_out; eauto.
    inversion H as [|? ? P1 _]; subst. apply IHe in E0. apply P1 in E1. congruence.
  - apply IHe in E0. apply (left_keeps _ _ _ _ H) in E. congruence.
  - apply (right_keeps _ _ _ H) in E0. apply IHe in E1. destruct o; cbn in E; inv_out; congruence.
  - apply (right_keeps _ _ _ H) in E0. apply IHe in E1. destruct o; cbn in E; inv_out; congruence.
Qed.
Lemma tr_stmts_keeps : forall locals l s s', result (tr_stmts false locals l s) = Some s' -> t_regs s' = t_regs s.
Proof.
  induction l as [|i l IH]; intros s s' E; cbn [tr_stmts] in E; inv_out; auto. apply IH in E. rewrite E.
  destruct i; cbn [tr_stmt] in E0; inv_out; cbn; eapply tr_keeps; eauto.
Qed.
Lemma tr_node_no_regs : forall o sn nd, result (tr_node o sn) = Some nd -> o_universal o = false -> n_regs nd = [].
Proof.
  intros o sn nd H U. unfold tr_node in H. rewrite U in H. inv_out. apply tr_stmts_keeps in E. cbn in E. cbn. rewrite E. auto.
Qed.
