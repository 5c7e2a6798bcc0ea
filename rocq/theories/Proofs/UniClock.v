(** Clocks of the expressions and registers of a node compiled with
    [#[universal_pre]]. *)
From Coq Require Import String List ZArith Bool Arith Lia Permutation.
From Verif Require Import Model.Base Model.Scalar Model.Value Model.Ast Model.Errors Model.Interp Model.Options Model.Surface Model.Translate
  Model.Graph Model.Causality Model.Typecheck Model.Clockcheck Model.Positivity Spec.TranslateSpec Spec.ProgramSem Spec.ClockSpec Spec.UniversalSem
  Proofs.AstInd Proofs.OutBasics Proofs.CoreProofs Proofs.TranslateSem Proofs.TranslateStruct Proofs.NodeWf Proofs.CausalityProofs Proofs.ProgramProofs Proofs.Paces.
Import ListNotations.

Lemma refine_meet : forall a b k, result (refine (kk a) (kk b)) = Some k -> exists p, meet a b = Some p /\ k = kk p.
Proof.
  intros [| |[|] x] [| |[|] y] k H; cbn in *; try discriminate; try (inversion H; subst; eexists; split; [reflexivity|reflexivity]);
    destruct (String.eqb x y); cbn in *; inversion H; subst; eexists; split; reflexivity.
Qed.
Lemma identical_same : forall a b u, result (clk_identical (kk a) (kk b)) = Some u -> same_pace a b = true.
Proof. intros [| |[|] x] [| |[|] y] u H; cbn in *; try discriminate; auto; destruct (String.eqb x y); auto; discriminate. Qed.
Lemma same_pace_sym : forall a b, same_pace a b = same_pace b a.
Proof.
  intros [| |p x] [| |q y]; cbn; auto. rewrite String.eqb_sym. destruct p, q; auto.
Qed.
Lemma same_pace_trans : forall a b c, same_pace a b = true -> same_pace b c = true -> same_pace a c = true.
Proof.
  intros [| |p x] [| |q y] [| |r z] A B; cbn in *; auto; try discriminate.
  apply andb_prop in A, B. destruct A as [A A'], B as [B B']. apply Bool.eqb_prop in A, B. apply String.eqb_eq in A', B'. subst.
  rewrite Bool.eqb_reflx, String.eqb_refl. auto.
Qed.

Section UPaced.
  Variable local : list (ident * clock).
  Variable locals : list ident.
  Variable env : ident -> option pace.
  Hypothesis Hin : forall x, In x locals -> exists c, lookup x local = Some c /\ env x = Some (clock_pace c).
  Hypothesis Hout : forall x, ~ In x locals -> env x = None.

  Definition uhas (e' : expr) (o : option pace) : Prop :=
    forall ks k ks', result (kc local e' ks) = Some (k, ks') -> exists p, o = Some p /\ k = kk p.
  Definition upaced (e : sexpr) : Prop := forall d s e' s',
    result (tr true locals e d s) = Some (e', s') -> uhas e' (upace_of env e).

  Lemma upaced_elems : forall l, Forall upaced l -> forall d s es s',
    result (tr_elems (tr true locals) l d s) = Some (es, s') -> Forall2 uhas es (map (upace_of env) l).
  Proof.
    induction 1 as [|e l H _ IH]; intros d s es s' E; cbn in E; inv_out; constructor; eauto.
  Qed.

  Lemma uhas_kcs : forall g es os, Forall2 uhas es os -> forall ks ks',
    result (kcs local (kk g) es ks) = Some ks' ->
    forallb (fun k => match k with Some k => same_pace g k | None => false end) os = true.
  Proof.
    induction 1 as [|e o es os H _ IH]; intros ks ks' E; [reflexivity|]. cbn [kcs] in E. cbn [forallb].
    apply obind_some in E. destruct E as ((k, s1) & E1 & E). apply obind_some in E. destruct E as (u & E2 & E).
    destruct (H _ _ _ E1) as (p & -> & ->). rewrite (identical_same _ _ _ E2). cbn [andb]. eauto.
  Qed.

  Lemma uhas_tuple : forall es os, Forall2 uhas es os -> uhas (ETuple es) (uniform os).
  Proof.
    intros es os H ks k ks' E. rewrite kc_tuple in E. destruct H as [|e o es os H Hs].
    - inv_out. exists Free. auto.
    - apply obind_some in E. destruct E as ((g, s1) & E1 & E). apply obind_some in E. destruct E as (s2 & E2 & E). inv_out.
      destruct (H _ _ _ E1) as (p & -> & ->). exists p. split; auto. cbn [uniform pbind].
      rewrite (uhas_kcs p (e :: es) (Some p :: os)) with (ks := s1) (ks' := ks'); auto.
  Qed.

  Lemma uhas_paren : forall es os b, Forall2 uhas es os -> uhas (paren es b) (uniform os).
  Proof.
    intros es os b H. pose proof (uhas_tuple _ _ H) as T. unfold paren.
    destruct es as [|e [|e' es]]; auto. destruct b; auto.
    inversion H as [|x o y os' A B]; subst. inversion B; subst. intros ks k ks' E. cbn [kc] in E.
    destruct (A _ _ _ E) as (p & -> & ->). exists p. split; auto. cbn. rewrite same_pace_refl. auto.
  Qed.

  Lemma uhas_pair : forall (op : expr -> expr -> expr) a b oa ob, uhas a oa -> uhas b ob ->
    (forall ks, kc local (op a b) ks = (l <~ attempt (kc local a ks);;
        r <~ attempt (kc local b (knext l ks));;
        '(l, _) <~ need l;;
        '(r, s) <~ need r;;
        k <~ refine l r;;
        done (k, s))) ->
    uhas (op a b) (pbind oa (fun x => pbind ob (meet x))).
  Proof.
    intros op a b oa ob A B D ks k ks' E. rewrite D in E.
    apply obind_some in E. destruct E as (l & E1 & E). apply attempt_some in E1.
    apply obind_some in E. destruct E as (r & E2 & E). apply attempt_some in E2.
    apply obind_some in E. destruct E as ((kl, s1) & E3 & E). destruct l as [[kl' s1']|]; [|discriminate]. cbn in E3. injection E3 as <- <-.
    apply obind_some in E. destruct E as ((kr, s2) & E4 & E). destruct r as [[kr' s2']|]; [|discriminate]. cbn in E4. injection E4 as <- <-.
    apply obind_some in E. destruct E as (k0 & E5 & E). cbn in E. injection E as <- <-.
    destruct (A _ _ _ E1) as (p & -> & ->). destruct (B _ _ _ E2) as (q & -> & ->). cbn [pbind]. apply refine_meet. auto.
  Qed.

  (** The variable that drives a clock. *)
  Lemma utr_driver : forall e d s x d' s', result (tr true locals e d s) = Some (EVar x d', s') -> driver env e = Some x.
  Proof.
    intros e. induction e using sexpr_ind'; intros d s y d' s' E; cbn [tr] in E.
    - inv_out. destruct l; unfold tr_lit in E0; try destruct (in_i64 _); inv_out.
    - cbn [done result] in E. injection E as E _. cbn [driver]. destruct (in_dec string_dec x locals) as [I|I].
      + rewrite (tr_var_local locals) in E by auto. inversion E; subst. destruct (Hin y I) as (c & _ & ->). reflexivity.
      + rewrite (tr_var_global locals) in E by auto. discriminate.
    - apply obind_some in E. destruct E as ((es, s1) & E0 & E). cbn in E. injection E as E _. unfold paren in E. destruct es as [|? [|? ?]]; try destruct b; discriminate.
    - apply obind_some in E. destruct E as ((es, s1) & E0 & E). discriminate.
    - apply obind_some in E. destruct E as ((es, s1) & E0 & E). discriminate.
    - apply obind_some in E. destruct E as ((es, s1) & E0 & E). discriminate.
    - apply obind_some in E. destruct E as ((es, s1) & E0 & E). discriminate.
    - inv_out.
    - inv_out.
    - apply obind_some in E. destruct E as ((e1, s1) & E0 & E). destruct l as [|[op a] l]; [cbn in E; injection E as -> ->; eapply IHe; eauto|].
      assert (G : forall l acc d s e' s', result (tr_left (tr true locals) EBin acc l d s) = Some (e', s') ->
        (forall x d, acc <> EVar x d) -> forall x d, e' <> EVar x d).
      { clear. induction l as [|[op e] l IH]; intros acc d s e' s' E H; cbn in E; inv_out; auto. eapply IH; eauto. discriminate. }
      cbn in E. apply obind_some in E. destruct E as ((e2, s2) & E1 & E). exfalso. eapply G; eauto. discriminate.
    - apply obind_some in E. destruct E as ((e1, s1) & E0 & E). destruct l as [|[op a] [|[op' b] l]]; cbn [driver]; inv_out. eapply IHe; eauto.
    - apply obind_some in E. destruct E as ((e1, s1) & E0 & E). destruct l as [|[op a] l]; [cbn in E; injection E as -> ->; eapply IHe; eauto|].
      assert (G : forall l acc d s e' s', result (tr_left (tr true locals) EClock acc l d s) = Some (e', s') ->
        (forall x d, acc <> EVar x d) -> forall x d, e' <> EVar x d).
      { clear. induction l as [|[op e] l IH]; intros acc d s e' s' E H; cbn in E; inv_out; auto. eapply IH; eauto. discriminate. }
      cbn in E. apply obind_some in E. destruct E as ((e2, s2) & E1 & E). exfalso. eapply G; eauto. discriminate.
    - apply obind_some in E. destruct E as ((o, s1) & E0 & E). apply obind_some in E. destruct E as ((e1, s2) & E1 & E).
      destruct l as [|a l]; cbn [driver].
      + cbn in E0. inv_out. eapply IHe; eauto.
      + destruct o; [cbn in E; discriminate|]. cbn in E0. inv_out. destruct o; inv_out.
    - apply obind_some in E. destruct E as ((o, s1) & E0 & E). apply obind_some in E. destruct E as ((e1, s2) & E1 & E).
      destruct l as [|a l]; cbn [driver].
      + cbn in E0. inv_out. eapply IHe; eauto.
      + destruct o; [cbn in E; discriminate|]. cbn in E0. inv_out. destruct o; inv_out.
  Qed.

  Lemma udriver_pace : forall e x, driver env e = Some x -> upace_of env e = Some (pace_var env x) /\ env x <> None.
  Proof.
    intros e. induction e using sexpr_ind'; intros y D; cbn [driver] in D; try discriminate.
    - destruct (env x) eqn:E; [|discriminate]. inversion D; subst. cbn. split; auto. congruence.
    - destruct l as [|[? ?] ?]; [|discriminate]. cbn [upace_of map meets fold_left]. auto.
    - destruct l as [|[? ?] ?]; [|discriminate]. cbn [upace_of map meets fold_left]. auto.
    - destruct l as [|[? ?] ?]; [|discriminate]. cbn [upace_of fold_left]. auto.
    - destruct l; [|discriminate]. destruct (IHe _ D) as [A B]. cbn [upace_of map]. rewrite A. cbn. rewrite same_pace_refl. auto.
    - destruct l; [|discriminate]. destruct (IHe _ D) as [A B]. cbn [upace_of map]. rewrite A. cbn. rewrite same_pace_refl. auto.
  Qed.

  Lemma upaced_bins : forall l, Forall (fun p => upaced (snd p)) l -> forall acc o d s r s', uhas acc o ->
    result (tr_left (tr true locals) EBin acc l d s) = Some (r, s') ->
    uhas r (meets (map (fun p => upace_of env (snd p)) l) o).
  Proof.
    induction 1 as [|[op e] l H _ IH]; intros acc o d s r s' A E; cbn in E; inv_out; auto.
    cbn [map meets fold_left snd]. eapply IH; [|exact E]. apply (uhas_pair (EBin op)); eauto.
  Qed.

  Lemma upaced_clocks : forall l, Forall (fun p => upaced (snd p)) l -> forall acc o d s r s', uhas acc o ->
    result (tr_left (tr true locals) EClock acc l d s) = Some (r, s') ->
    uhas r (fold_left (sample env) l o).
  Proof.
    induction 1 as [|[pos e] l H _ IH]; intros acc o d s r s' A E; cbn in E; inv_out; auto.
    cbn [fold_left]. eapply IH; [|exact E]. intros ks k ks' K. cbn [kc] in K.
    apply obind_some in K. destruct K as ((ki, s1) & K1 & K). apply obind_some in K. destruct K as ((kc', s2) & K2 & K).
    apply obind_some in K. destruct K as (new & K3 & K). apply obind_some in K. destruct K as (kr & K4 & K). cbn in K. injection K as <- <-.
    destruct (A _ _ _ K1) as (p & -> & ->). destruct (H _ _ _ _ E0 _ _ _ K2) as (q & Eq & ->). cbn [snd] in *.
    destruct e0; try discriminate. pose proof (utr_driver _ _ _ _ _ _ E0) as D. destruct (udriver_pace _ _ D) as [Dp _].
    rewrite Dp in Eq. inversion Eq; subst q. unfold sample. cbn [pbind fst snd]. rewrite D. cbn [pbind].
    destruct (refine_meet _ _ _ K4) as (m & -> & _). cbn [pbind]. exists (On pos x). split; auto. cbn in K3. inversion K3. destruct pos; auto.
  Qed.

  Lemma uniform_chain : forall e l p q, uniform (rev (map (upace_of env) l)) = Some p -> l <> [] ->
    upace_of env e = Some q -> same_pace p q = true -> uniform (rev (upace_of env e :: map (upace_of env) l)) = Some p.
  Proof.
    intros e l p q U Nl Eq Sp. cbn [rev]. destruct (rev (map (upace_of env) l)) as [|o os] eqn:R.
    - exfalso. apply Nl. apply (f_equal (@length _)) in R. rewrite rev_length, map_length in R. destruct l; auto. discriminate.
    - cbn [uniform app] in *. destruct o as [g|]; [|discriminate]. cbn [pbind] in *. cbn [forallb] in *. rewrite forallb_app.
      destruct (same_pace g g && forallb _ os) eqn:Fb; [|discriminate]. inversion U; subst. apply andb_prop in Fb. destruct Fb as [F1 F2].
      rewrite F1, F2. cbn [forallb andb]. rewrite Eq, Sp. auto.
  Qed.

  Lemma uniform_single : forall o, uniform [o] = o.
  Proof. intros [k|]; cbn; auto. rewrite same_pace_refl. auto. Qed.

  (** Chains: the composition [compose] of an operand with the rest. *)
  Lemma upaced_right : forall bump compose,
    (forall d i a b s r s' oa ob, compose d i a b s = (r, s') -> uhas a oa -> uhas b ob ->
       uhas r (pbind oa (fun x => pbind ob (fun y => if same_pace y x then Some y else None)))) ->
    forall l, Forall upaced l -> forall i d s o s',
    result (tr_right (tr true locals) bump compose i l d s) = Some (o, s') ->
    match l with
    | [] => o = None
    | e :: l => exists r, o = Some r /\ uhas r (uniform (rev (upace_of env e :: map (upace_of env) l)))
    end.
  Proof.
    intros bump compose Hc. induction 1 as [|e l H _ IH]; intros i d s o s' E; cbn in E; [inv_out; auto|].
    apply obind_some in E. destruct E as ((o1, s1) & E0 & E). apply obind_some in E. destruct E as ((e1, s2) & E1 & E).
    specialize (IH _ _ _ _ _ E0). destruct l as [|a l].
    - subst o1. cbn in E. inv_out. eexists. split; [reflexivity|]. cbn [map rev app]. rewrite uniform_single. eauto.
    - destruct IH as (r & -> & Hr). destruct (compose d i e1 r s2) as [r' s3] eqn:C. cbn in E. injection E as <- <-.
      eexists. split; [reflexivity|]. intros ks k ks' K.
      destruct (Hc _ _ _ _ _ _ _ _ _ C (H _ _ _ _ E1) Hr _ _ _ K) as (p & Ep & ->).
      destruct (upace_of env e) as [x|] eqn:Ee; [|discriminate]. cbn [pbind] in Ep.
      destruct (uniform (rev (upace_of env a :: map (upace_of env) l))) as [y|] eqn:Eu; [|discriminate]. cbn [pbind] in Ep.
      destruct (same_pace y x) eqn:Sp; [|discriminate]. inversion Ep; subst. exists p. split; auto. rewrite <- Ee.
      eapply uniform_chain; eauto. discriminate.
  Qed.

  Lemma uhas_fby : forall d i a b s r s' oa ob, fby_registers d i a b s = (r, s') -> uhas a oa -> uhas b ob ->
       uhas r (pbind oa (fun x => pbind ob (fun y => if same_pace y x then Some y else None))).
  Proof.
    intros d i a b s r s' oa ob E A B ks k ks' K. inversion E; subst. cbn [kc] in K.
    apply obind_some in K. destruct K as ((kn, s1) & K1 & K). apply obind_some in K. destruct K as (s2 & K2 & K). cbn in K. injection K as <- <-.
    apply obind_some in K2. destruct K2 as ((ki, s3) & K3 & K2). apply obind_some in K2. destruct K2 as (u & K4 & K2).
    destruct (B _ _ _ K1) as (y & -> & ->). destruct (A _ _ _ K3) as (x & -> & ->). cbn [pbind].
    rewrite (identical_same _ _ _ K4). eauto.
  Qed.
  Lemma uhas_then : forall d i a b s r s' oa ob, then_flips d i a b s = (r, s') -> uhas a oa -> uhas b ob ->
       uhas r (pbind oa (fun x => pbind ob (fun y => if same_pace y x then Some y else None))).
  Proof.
    intros d i a b s r s' oa ob E A B ks k ks' K. inversion E; subst. cbn [kc] in K.
    apply obind_some in K. destruct K as (l & K1 & K). apply attempt_some in K1.
    apply obind_some in K. destruct K as (r' & K2 & K). apply attempt_some in K2.
    apply obind_some in K. destruct K as ((kr, s2) & K4 & K). destruct r' as [[kr' s2']|]; [|discriminate]. cbn in K4. injection K4 as <- <-.
    apply obind_some in K. destruct K as ((kl, s1) & K3 & K). destruct l as [[kl' s1']|]; [|discriminate]. cbn in K3. injection K3 as <- <-.
    apply obind_some in K. destruct K as (u & K5 & K). cbn in K. injection K as <- <-.
    destruct (B _ _ _ K2) as (y & -> & ->). destruct (A _ _ _ K1) as (x & -> & ->). cbn [pbind].
    rewrite (identical_same _ _ _ K5). eauto.
  Qed.

  Lemma chain_right : forall {f : sexpr -> nat -> tst -> out (expr * tst)} bump compose e l d s r s',
    result ('(acc, s) <~ tr_right f bump compose 1 l d s;;
            '(e, s) <~ f e (bump d 0) s;;
            match acc with
            | None => done (e, s)
            | Some after => done (compose d 0 e after s)
            end) = Some (r, s') ->
    result (tr_right f bump compose 0 (e :: l) d s) = Some (Some r, s').
  Proof.
    intros f bump compose e l d s r s' E. cbn.
    apply obind_some in E. destruct E as ((o1, s1) & E0 & E). apply obind_some in E. destruct E as ((e1, s2) & E1 & E).
    rewrite result_obind, E0. rewrite result_obind, E1. destruct o1; [|cbn in *; inv_out; auto].
    cbn in E. destruct (compose d 0 e1 e0 s2). inv_out. auto.
  Qed.

  Lemma tr_upaced : forall e, upaced e.
  Proof.
    intros e. induction e using sexpr_ind'; intros d s e' s' E; cbn [tr] in E.
    - inv_out. destruct l; unfold tr_lit in E0; try destruct (in_i64 _); inv_out; intros ks k ks' K; cbn in K; inv_out; exists Free; auto.
    - inv_out. intros ks k ks' K. cbn [upace_of]. unfold pace_var. destruct (in_dec string_dec x locals) as [I|I].
      + rewrite (tr_var_local locals) in K by auto. destruct (Hin x I) as (c & E & ->). cbn [kc] in K. rewrite E in K. cbn in K. injection K as <- <-. rewrite <- kk_clock. eauto.
      + rewrite (tr_var_global locals) in K by auto. rewrite (Hout x I). cbn in K. injection K as <- <-. exists Free. auto.
    - inv_out. cbn [upace_of]. apply uhas_paren. eapply upaced_elems; eauto.
    - inv_out. cbn [upace_of]. intros ks k ks' K. cbn [kc] in K. eapply uhas_paren; [|exact K]. eapply upaced_elems; eauto.
    - inv_out. intros ks k ks' K. cbn [kc] in K. eapply IHe; eauto.
    - inv_out. intros ks k ks' K. cbn [kc] in K. eapply IHe; eauto.
    - apply obind_some in E. destruct E as ((e1, s1) & E0 & E). cbn in E. injection E as <- <-. intros ks k ks' K. cbn [kc upace_of] in *.
      apply obind_some in K. destruct K as ((kn, s2) & K1 & K). cbn in K. injection K as <- <-. eapply IHe; eauto.
    - inv_out. intros ks k ks' K. cbn [kc upace_of meets fold_left] in *.
      apply obind_some in K. destruct K as (c & K1 & K). apply attempt_some in K1.
      apply obind_some in K. destruct K as (y & K2 & K). apply attempt_some in K2.
      apply obind_some in K. destruct K as (n & K3 & K). apply attempt_some in K3.
      apply obind_some in K. destruct K as ((kc', s1) & K4 & K). destruct c as [[c0 sc]|]; [|discriminate]. cbn in K4. injection K4 as <- <-.
      apply obind_some in K. destruct K as ((ky, s2) & K4 & K). destruct y as [[y0 sy]|]; [|discriminate]. cbn in K4. injection K4 as <- <-.
      apply obind_some in K. destruct K as ((kn, s3) & K4 & K). destruct n as [[n0 sn]|]; [|discriminate]. cbn in K4. injection K4 as <- <-.
      apply obind_some in K. destruct K as (k1 & K4 & K). apply obind_some in K. destruct K as (k2 & K5 & K). cbn in K. injection K as <- <-.
      destruct (IHe1 _ _ _ _ E0 _ _ _ K1) as (p1 & -> & ->). destruct (IHe2 _ _ _ _ E1 _ _ _ K2) as (p2 & -> & ->). destruct (IHe3 _ _ _ _ E2 _ _ _ K3) as (p3 & -> & ->).
      cbn [pbind]. destruct (refine_meet _ _ _ K4) as (m & -> & ->). cbn [pbind]. apply refine_meet. auto.
    - inv_out. intros ks k ks' K. cbn [kc upace_of] in *.
      apply obind_some in K. destruct K as (on & K1 & K). apply attempt_some in K1.
      apply obind_some in K. destruct K as (off & K2 & K). apply attempt_some in K2.
      apply obind_some in K. destruct K as (c & K3 & K). apply attempt_some in K3.
      apply obind_some in K. destruct K as (x & K4 & K). apply attempt_some in K4.
      apply obind_some in K. destruct K as (y & K5 & K). apply attempt_some in K5.
      apply obind_some in K. destruct K as ((kc', s1) & K6 & K). destruct c as [[c0 sc]|]; [|discriminate]. cbn in K6. injection K6 as <- <-.
      apply obind_some in K. destruct K as ((kx, s2) & K6 & K). destruct x as [[x0 sx]|]; [|discriminate]. cbn in K6. injection K6 as <- <-.
      apply obind_some in K. destruct K as ((ky, s3) & K6 & K). destruct y as [[y0 sy]|]; [|discriminate]. cbn in K6. injection K6 as <- <-.
      apply obind_some in K. destruct K as (on' & K6 & K). destruct on as [on0|]; [|discriminate]. cbn in K6. injection K6 as <-.
      apply obind_some in K. destruct K as (k1 & K6 & K).
      apply obind_some in K. destruct K as (off' & K7 & K). destruct off as [off0|]; [|discriminate]. cbn in K7. injection K7 as <-.
      apply obind_some in K. destruct K as (k2 & K7 & K). cbn in K. injection K as <- <-.
      destruct e; try discriminate. pose proof (utr_driver _ _ _ _ _ _ E0) as D. destruct (udriver_pace _ _ D) as [Dp _]. rewrite D. cbn [pbind].
      destruct (IHe1 _ _ _ _ E0 _ _ _ K3) as (p1 & Ep1 & ->). rewrite Dp in Ep1. inversion Ep1; subst p1.
      destruct (IHe2 _ _ _ _ E1 _ _ _ K4) as (p2 & -> & ->). destruct (IHe3 _ _ _ _ E2 _ _ _ K5) as (p3 & -> & ->). cbn [pbind].
      cbn in K1, K2. inversion K1; subst on0. inversion K2; subst off0.
      change (KOn x) with (kk (On true x)) in K6. change (KOff x) with (kk (On false x)) in K7.
      destruct (refine_meet _ _ _ K6) as (m & -> & _). destruct (refine_meet _ _ _ K7) as (m' & -> & _). cbn [pbind]. eauto.
    - inv_out. cbn [upace_of]. eapply upaced_bins; eauto.
    - inv_out. cbn [upace_of]. destruct l as [|[op a] [|[op' b] l]]; inv_out.
      + cbn. eauto.
      + cbn [map meets fold_left snd]. inversion H; subst. apply (uhas_pair (ECmp op)); eauto.
    - inv_out. cbn [upace_of]. eapply upaced_clocks; eauto.
    - cbn [upace_of]. assert (R := chain_right (fun d _ => d) fby_registers e l d s e' s' E).
      apply (upaced_right _ _ uhas_fby) in R; [|constructor; auto]. destruct R as (r' & Er & R). inversion Er; subst. auto.
    - cbn [upace_of]. assert (R := chain_right (fun d _ => d) then_flips e l d s e' s' E).
      apply (upaced_right _ _ uhas_then) in R; [|constructor; auto]. destruct R as (r' & Er & R). inversion Er; subst. auto.
  Qed.
End UPaced.
