(** Settled source expressions are those whose translation evaluates nothing
    without a value. *)
From Coq Require Import String List ZArith Bool Arith Lia.
From Verif Require Import Model.Base Model.Scalar Model.Value Model.Ast Model.Errors Model.Interp Model.Surface Model.Translate
  Spec.CoreSem Spec.SurfaceSem Spec.ProgramSem Spec.SettledSem Proofs.AstInd Proofs.OutBasics Proofs.CoreProofs Proofs.TranslateSem
  Proofs.TranslateStruct Proofs.ProgramProofs Proofs.Completeness Proofs.CompletenessNode.
Import ListNotations.

Section Settled.
  Variable mode : ovf.
  Variable glob : ident -> option scalar.
  Variable locals : list ident.
  Variable rho : nat -> ident -> option nillable.
  Variable call : nat -> inst -> val -> res (val * inst).
  Variable nilout : nat -> res val.
  Variable sub0 : nat -> inst.
  Variable F : ident -> list val -> val -> Prop.
  Variable N : ident -> val -> Prop.
  Notation cs := (csem mode glob rho nok (calls_op call sub0) (nilouts_op nilout)).
  Notation css := (csems mode glob rho nok (calls_op call sub0) (nilouts_op nilout)).
  Notation sm := (sem mode glob locals rho F N).
  Notation wh := (whole mode glob call nilout sub0 rho).
  Notation st := (settled mode glob locals rho F N).
  Notation ag := (agree (calls_op call sub0) (nilouts_op nilout) F N).
  Notation pres := (preservation mode glob locals rho nok (calls_op call sub0) (nilouts_op nilout) F N).

  Definition same (e : sexpr) : Prop := forall d s e' s',
    result (tr false locals e d s) = Some (e', s') -> ag (t_blocks s') ->
    forall lo T, lo <= d -> (exists v, cs lo e' T v) -> wh lo e' T <-> st e (Z.of_nat T - Z.of_nat d).

  Fixpoint all_settled (l : list sexpr) (t : Z) : Prop := match l with [] => True | e :: l => st e t /\ all_settled l t end.
  Fixpoint all_whole (lo : nat) (l : list expr) (T : nat) : Prop := match l with [] => True | e :: l => wh lo e T /\ all_whole lo l T end.
  Fixpoint pairs_settled {O} (l : list (O * sexpr)) (t : Z) : Prop := match l with [] => True | (_, e) :: l => st e t /\ pairs_settled l t end.

  Lemma wh_tuple : forall lo l T, wh lo (ETuple l) T <-> all_whole lo l T.
  Proof. intros. induction l; cbn; [tauto|]. cbn in IHl. tauto. Qed.
  Lemma wh_paren : forall es b lo T, wh lo (paren es b) T <-> all_whole lo es T.
  Proof.
    intros es b lo T. unfold paren. destruct es as [|e [|e' es]]; try destruct b; try apply wh_tuple. cbn. tauto.
  Qed.
  Lemma st_paren : forall l b t, st (XParen l b) t <-> all_settled l t.
  Proof. intros. induction l; cbn; [tauto|]. cbn in IHl. tauto. Qed.
  Lemma st_call : forall f l b t, st (XCall f l b) t <-> ((0 <= t)%Z -> all_settled l t).
  Proof.
    intros f l b t. change (st (XCall f l b) t) with ((0 <= t)%Z -> st (XParen l b) t). rewrite st_paren. tauto.
  Qed.
  Lemma st_bin : forall e l t, st (XBin e l) t <-> st e t /\ pairs_settled l t.
  Proof. intros e l t. induction l as [|[op a] l IH]; cbn; [tauto|]. cbn in IH. tauto. Qed.
  Lemma st_cmp : forall e l t, st (XCmp e l) t <-> st e t /\ pairs_settled l t.
  Proof. intros e l t. induction l as [|[op a] l IH]; cbn; [tauto|]. cbn in IH. tauto. Qed.
  Lemma st_clock : forall e l t, st (XClock e l) t <-> st e t /\ pairs_settled l t.
  Proof. intros e l t. induction l as [|[op a] l IH]; cbn; [tauto|]. cbn in IH. tauto. Qed.

  (** Chains: the operands from the one in use on. *)
  Lemma st_then : forall e l t, st (XThen e l) t <->
    forall k e', nth_error (e :: l) k = Some e' -> position (length l) t <= k -> st e' t /\ exists v, sm e' t v.
  Proof.
    intros e l t. cbn [settled]. set (m := position (length l) t). clearbody m.
    assert (G : forall l j, (fix tail k l' := match l' with [] => True | e :: l' => (m <= k -> st e t /\ exists v, sm e t v) /\ tail (S k) l' end) j l <->
      forall k e', nth_error l k = Some e' -> m <= j + k -> st e' t /\ exists v, sm e' t v).
    { clear. induction l as [|a l IH]; intros j; [split; auto; intros _ [|k] e' H; discriminate|]. rewrite IH. split.
      - intros [A B] [|k] e' H K; cbn in H; [inversion H; subst; apply A; lia|]. apply (B k); auto. lia.
      - intros H. split; [intros K; apply (H 0); auto; lia|]. intros k e' A K. apply (H (S k)); auto. lia. }
    rewrite G. split.
    - intros [A B] [|k] e' H K; cbn in H; [inversion H; subst; auto|]. apply (B k); auto.
    - intros H. split; [intros K; apply (H 0); auto|]. intros k e' A K. apply (H (S k)); auto.
  Qed.
  Lemma st_fby : forall e l t, st (XFby e l) t <->
    forall k e', nth_error (e :: l) k = Some e' -> position (length l) t <= k -> st e' (t - Z.of_nat k) /\ exists v, sm e' (t - Z.of_nat k) v.
  Proof.
    intros e l t. cbn [settled]. set (m := position (length l) t). clearbody m.
    assert (G : forall l j, (fix tail k l' := match l' with [] => True | e :: l' => (m <= k -> st e (t - Z.of_nat k) /\ exists v, sm e (t - Z.of_nat k) v) /\ tail (S k) l' end) j l <->
      forall k e', nth_error l k = Some e' -> m <= j + k -> st e' (t - Z.of_nat (j + k)) /\ exists v, sm e' (t - Z.of_nat (j + k)) v).
    { clear. induction l as [|a l IH]; intros j; [split; auto; intros _ [|k] e' H; discriminate|]. rewrite IH. split.
      - intros [A B] [|k] e' H K; cbn in H; [inversion H; subst; rewrite Nat.add_0_r in *; apply A; auto|]. replace (j + S k) with (S j + k) by lia. apply (B k); auto. lia.
      - intros H. split; [intros K; specialize (H 0 a eq_refl); rewrite Nat.add_0_r in H; auto|]. intros k e' A K. replace (S j + k) with (j + S k) by lia. apply (H (S k)); auto. lia. }
    rewrite G. split.
    - intros [A B] [|k] e' H K; cbn in H; [inversion H; subst; rewrite Z.sub_0_r; auto|]. apply (B k); auto.
    - intros H. split; [intros K; specialize (H 0 e eq_refl); rewrite Z.sub_0_r in H; auto|]. intros k e' A K. apply (H (S k)); auto.
  Qed.

  Lemma same_elems : forall l, Forall same l -> forall d s es s',
    result (tr_elems (tr false locals) l d s) = Some (es, s') -> ag (t_blocks s') ->
    forall lo T, lo <= d -> (exists vs, css lo es T vs) -> all_whole lo es T <-> all_settled l (Z.of_nat T - Z.of_nat d).
  Proof.
    induction 1 as [|e l H _ IH]; intros d s es s' E A lo T L (vs & V); cbn in E; inv_out; [cbn; tauto|].
    assert (A0 : ag (t_blocks t)).
    { eapply agree_extends; [|exact A]. eapply tr_elems_grows; [|exact E1]. apply Forall_forall. intros x _. apply tr_grows. }
    rewrite csems_cons in V. destruct V as (v & vs' & -> & V1 & V2).
    cbn [all_whole all_settled]. rewrite (H _ _ _ _ E0 A0 lo T L (ex_intro _ _ V1)), (IH _ _ _ _ E1 A lo T L (ex_intro _ _ V2)). tauto.
  Qed.

  Lemma same_bins : forall l, Forall (fun p => same (snd p)) l -> forall acc d s r s',
    result (tr_left (tr false locals) EBin acc l d s) = Some (r, s') -> ag (t_blocks s') ->
    forall lo T, lo <= d -> (exists v, cs lo r T v) -> wh lo r T <-> wh lo acc T /\ pairs_settled l (Z.of_nat T - Z.of_nat d).
  Proof.
    induction 1 as [|[op e] l H Hl IH]; intros acc d s r s' E A lo T L V; cbn in E; inv_out; [cbn; tauto|].
    assert (A0 : ag (t_blocks t)).
    { eapply agree_extends; [|exact A]. eapply tr_left_grows; [|exact E]. apply Forall_forall. intros x _. apply tr_grows. }
    rewrite (IH _ _ _ _ _ E A lo T L V). destruct V as (v & V).
    apply (preserved_bins mode glob locals rho nok (calls_op call sub0) (nilouts_op nilout) F N l) with (d := d) (s := t) (s' := s') (acc := EBin op acc e0) in V; auto.
    2: { apply Forall_forall. intros x _. apply pres. }
    destruct V as (w & V & _). rewrite csem_bin in V. destruct V as (va & vb & _ & V & _). cbn [snd] in H.
    cbn [whole pairs_settled]. rewrite (H _ _ _ _ E0 A0 lo T L (ex_intro _ _ V)). tauto.
  Qed.
  Lemma same_clocks : forall l, Forall (fun p => same (snd p)) l -> forall acc d s r s',
    result (tr_left (tr false locals) EClock acc l d s) = Some (r, s') -> ag (t_blocks s') ->
    forall lo T, lo <= d -> (exists v, cs lo r T v) -> wh lo r T <-> wh lo acc T /\ pairs_settled l (Z.of_nat T - Z.of_nat d).
  Proof.
    induction 1 as [|[op e] l H Hl IH]; intros acc d s r s' E A lo T L V; cbn in E; inv_out; [cbn; tauto|].
    assert (A0 : ag (t_blocks t)).
    { eapply agree_extends; [|exact A]. eapply tr_left_grows; [|exact E]. apply Forall_forall. intros x _. apply tr_grows. }
    rewrite (IH _ _ _ _ _ E A lo T L V). destruct V as (v & V).
    apply (preserved_clocks mode glob locals rho nok (calls_op call sub0) (nilouts_op nilout) F N l) with (d := d) (s := t) (s' := s') (acc := EClock op acc e0) in V; auto.
    2: { apply Forall_forall. intros x _. apply pres. }
    destruct V as (w & V & _). rewrite csem_clock in V. destruct V as (va & vb & _ & V & _). cbn [snd] in H.
    cbn [whole pairs_settled]. rewrite (H _ _ _ _ E0 A0 lo T L (ex_intro _ _ V)). tauto.
  Qed.

  Lemma same_right : forall (sh : nat -> nat) bump, (forall d i, bump d i = d + sh i) ->
    forall l, Forall same l -> forall i d s r s',
    result (tr_right (tr false locals) bump later i l d s) = Some (Some r, s') -> ag (t_blocks s') ->
    forall lo T, lo <= d -> (exists v, cs lo r T v) ->
    wh lo r T <-> forall k e', nth_error l k = Some e' ->
      position (length l - 1) (Z.of_nat T - Z.of_nat d - Z.of_nat i) <= k ->
      st e' (Z.of_nat T - Z.of_nat d - Z.of_nat (sh (i + k))) /\ exists v, sm e' (Z.of_nat T - Z.of_nat d - Z.of_nat (sh (i + k))) v.
  Proof.
    intros sh bump Hb. induction 1 as [|e l H _ IH]; intros i d s r s' E A lo T L V; cbn in E; inv_out.
    rename t0 into s1.
    assert (Es : s1 = s') by (destruct o; cbn in E; inv_out; auto). subst s1.
    assert (A0 : ag (t_blocks t)).
    { eapply agree_extends; [|exact A]. destruct o; cbn in E; inv_out; eapply tr_grows; eauto. }
    assert (Pl : Forall (preserved mode glob locals rho nok (calls_op call sub0) (nilouts_op nilout) F N) l) by (apply Forall_forall; intros x _; apply pres).
    pose proof (preserved_right mode glob locals rho nok (calls_op call sub0) (nilouts_op nilout) F N sh bump Hb l Pl _ _ _ _ _ E0 A0) as Pr.
    assert (Eb : (Z.of_nat T - Z.of_nat (bump d i) = Z.of_nat T - Z.of_nat d - Z.of_nat (sh i))%Z) by (rewrite Hb; lia).
    assert (Lb : lo <= bump d i) by (rewrite Hb; lia).
    pose proof (fun v => pres e _ _ _ _ E1 A lo T v Lb) as Pe.
    pose proof (fun V => H _ _ _ _ E1 A lo T Lb V) as He. rewrite Eb in Pe, He.
    destruct o as [after|]; cbn in E; inv_out.
    - destruct Pr as [Ne Pr]. cbn zeta in Pr. cbn [whole].
      assert (Ll : length l <> 0) by (destruct l; [congruence|discriminate]).
      replace (length (e :: l) - 1) with (S (length l - 1)) by (simpl; lia).
      set (t' := (Z.of_nat T - Z.of_nat d)%Z) in *.
      assert (P0 : position (S (length l - 1)) (t' - Z.of_nat i) <= 0 <-> T <= d + i) by (unfold position, t'; lia).
      assert (PS : forall k, position (S (length l - 1)) (t' - Z.of_nat i) <= S k <-> position (length l - 1) (t' - Z.of_nat (S i)) <= k) by (intros; unfold position, t'; lia).
      split.
      + intros (Va & Wa & Wb) [|k] e' Hk K.
        * cbn in Hk. inversion Hk; subst e'. rewrite Nat.add_0_r. apply P0 in K. destruct V as (v & V). apply csem_later in V. destruct V as [(_ & V)|(Q & _)]; [|lia].
          split; [apply He; eauto|]. exists v. apply Pe. auto.
        * replace (i + S k) with (S i + k) by lia. cbn in Hk. apply PS in K. apply (IH _ _ _ _ _ E0 A0 lo T L Va); auto.
      + intros Q. assert (Va : exists v, cs lo after T v).
        { set (p := position (length l - 1) (t' - Z.of_nat (S i))) in *.
          assert (Lp : p < length l) by (unfold p, position; lia).
          destruct (nth_error l p) as [e'|] eqn:Ep; [|apply nth_error_None in Ep; lia].
          destruct (Q (S p) e' Ep) as (_ & v & Sv); [apply PS; auto|]. exists v. apply Pr; auto. exists e'. fold t'. fold p. split; auto. replace (i + S p) with (S i + p) in Sv by lia. exact Sv.
        }
        split; auto. split.
        * apply (IH _ _ _ _ _ E0 A0 lo T L Va). intros k e' Hk K. replace (S i + k) with (i + S k) by lia. apply (Q (S k)); auto. apply PS. auto.
        * intros K. apply P0 in K. destruct (Q 0 e eq_refl K) as (Se & v & Sv). rewrite Nat.add_0_r in Se, Sv. apply He; auto. exists v. apply Pe. auto.
    - assert (P : position (length [e] - 1) (Z.of_nat T - Z.of_nat d - Z.of_nat i) = 0) by (unfold position; simpl; lia).
      rewrite P. rewrite (He V). split.
      + intros S [|k] e' Hk _; [|destruct k; discriminate]. cbn in Hk. inversion Hk; subst e'. rewrite Nat.add_0_r. split; auto. destruct V as (v & V). exists v. apply Pe. auto.
      + intros Q. destruct (Q 0 e eq_refl (le_n 0)) as (Se & _). rewrite Nat.add_0_r in Se. auto.
  Qed.

  Lemma same_chain : forall (sh : nat -> nat) bump, (forall d i, bump d i = d + sh i) ->
    forall e l, same e -> Forall same l -> forall d s r s',
    result ('(acc, s) <~ tr_right (tr false locals) bump later 1 l d s;;
            '(e, s) <~ tr false locals e (bump d 0) s;;
            match acc with
            | None => done (e, s)
            | Some after => done (later d 0 e after s)
            end) = Some (r, s') -> ag (t_blocks s') ->
    forall lo T, lo <= d -> (exists v, cs lo r T v) ->
    wh lo r T <-> forall k e', nth_error (e :: l) k = Some e' -> position (length l) (Z.of_nat T - Z.of_nat d) <= k ->
      st e' (Z.of_nat T - Z.of_nat d - Z.of_nat (sh k)) /\ exists v, sm e' (Z.of_nat T - Z.of_nat d - Z.of_nat (sh k)) v.
  Proof.
    intros sh bump Hb e l He Hl d s r s' E A lo T L V.
    assert (R : result (tr_right (tr false locals) bump later 0 (e :: l) d s) = Some (Some r, s')).
    { cbn. inv_out. rewrite result_obind, E0. rewrite result_obind, E1. destruct o; cbn in *; inv_out; auto. }
    rewrite (same_right sh bump Hb (e :: l) (Forall_cons e He Hl) _ _ _ _ _ R A lo T L V).
    replace (length (e :: l) - 1) with (length l) by (simpl; lia).
    replace (Z.of_nat T - Z.of_nat d - Z.of_nat 0)%Z with (Z.of_nat T - Z.of_nat d)%Z by lia. reflexivity.
  Qed.

  Lemma settled_whole : forall e, same e.
  Proof.
    intros e. induction e using sexpr_ind'; intros d s r s' E A lo T L V.
    - cbn [tr] in E. inv_out. destruct l; unfold tr_lit in E0; try destruct (in_i64 _); inv_out; cbn; tauto.
    - cbn in E. inv_out. unfold tr_var. destruct (existsb _ _); cbn; tauto.
    - cbn in E. inv_out. rewrite wh_paren, st_paren. destruct V as (v & V). rewrite paren_csem in V. destruct V as (vs & V & _).
      eapply same_elems; eauto.
    - cbn in E. inv_out. cbn [whole]. rewrite wh_paren, st_call.
      assert (A0 : ag (t_blocks t)) by (eapply agree_extends; [|exact A]; exists [f]; auto).
      replace (Nat.max lo d) with d by lia.
      destruct V as (v & V). rewrite csem_sub in V. replace (Nat.max lo d) with d in V by lia.
      destruct V as [(Q & _)|(Q & args & La & Sa & _)]; [split; intros; lia|].
      assert (V : exists vs, css d l0 T vs).
      { destruct (nth_error args (T - d)) as [w|] eqn:Ew; [|apply nth_error_None in Ew; lia].
        specialize (Sa _ _ Ew). rewrite paren_csem in Sa. destruct Sa as (vs & Sa & _). exists vs. replace (d + (T - d)) with T in Sa by lia. auto. }
      rewrite (same_elems l H _ _ _ _ E0 A0 d T (le_n d) V). split; intros X Y; apply X; lia.
    - cbn in E. inv_out. cbn. destruct V as (v & V). rewrite csem_un in V. destruct V as (w & V & _). eapply IHe; eauto.
    - cbn in E. inv_out. cbn. destruct V as (v & V). rewrite csem_un in V. destruct V as (w & V & _). eapply IHe; eauto.
    - cbn in E. inv_out. cbn [whole settled]. destruct V as (v & V). rewrite csem_pre in V. rewrite (IHe _ _ _ _ E0 A lo T) by eauto.
      replace (Z.of_nat T - Z.of_nat d - 1)%Z with (Z.of_nat T - Z.of_nat (S d))%Z by lia. reflexivity.
    - cbn in E. inv_out. cbn [whole settled]. destruct V as (v & V). rewrite csem_if in V. destruct V as (va & vb & vc & Va & Vb & Vc & _).
      assert (A1 : ag (t_blocks t0)) by (eapply agree_extends; [eapply tr_grows; eauto|auto]).
      assert (A0 : ag (t_blocks t)) by (eapply agree_extends; [eapply tr_grows; eauto|auto]).
      rewrite (IHe1 _ _ _ _ E0 A0 lo T), (IHe2 _ _ _ _ E1 A1 lo T), (IHe3 _ _ _ _ E2 A lo T) by eauto. tauto.
    - cbn in E. inv_out. cbn [whole settled]. destruct V as (v & V). rewrite csem_merge in V. destruct V as (va & vb & vc & Va & Vb & Vc & _).
      assert (A1 : ag (t_blocks t0)) by (eapply agree_extends; [eapply tr_grows; eauto|auto]).
      assert (A0 : ag (t_blocks t)) by (eapply agree_extends; [eapply tr_grows; eauto|auto]).
      rewrite (IHe1 _ _ _ _ E0 A0 lo T), (IHe2 _ _ _ _ E1 A1 lo T), (IHe3 _ _ _ _ E2 A lo T) by eauto. tauto.
    - cbn in E. inv_out. rewrite st_bin. rewrite (same_bins _ H _ _ _ _ _ E A lo T L V).
      assert (A0 : ag (t_blocks t)).
      { eapply agree_extends; [|exact A]. eapply tr_left_grows; [|exact E]. apply Forall_forall. intros x _. apply tr_grows. }
      destruct V as (v & V). apply (preserved_bins mode glob locals rho nok (calls_op call sub0) (nilouts_op nilout) F N l) with (d := d) (s := t) (s' := s') (acc := e0) in V; auto.
      2: { apply Forall_forall. intros x _. apply pres. }
      destruct V as (w & V & _). rewrite (IHe _ _ _ _ E0 A0 lo T) by eauto. tauto.
    - cbn in E. inv_out. rewrite st_cmp. destruct l as [|[op e1] [|[op' e2] l]]; inv_out.
      + cbn [pairs_settled]. rewrite (IHe _ _ _ _ E0 A lo T) by eauto. tauto.
      + cbn [pairs_settled whole]. destruct V as (v & V). rewrite csem_cmp in V. destruct V as (va & vb & Va & Vb & _). inversion H; subst. cbn [snd] in *.
        assert (A0 : ag (t_blocks t)) by (eapply agree_extends; [eapply tr_grows; eauto|auto]).
        match goal with X : same e1 |- _ => rename X into P1 end.
        rewrite (IHe _ _ _ _ E0 A0 lo T) by eauto. rewrite (P1 _ _ _ _ E1 A lo T) by eauto. tauto.
    - cbn in E. inv_out. rewrite st_clock. rewrite (same_clocks _ H _ _ _ _ _ E A lo T L V).
      assert (A0 : ag (t_blocks t)).
      { eapply agree_extends; [|exact A]. eapply tr_left_grows; [|exact E]. apply Forall_forall. intros x _. apply tr_grows. }
      destruct V as (v & V). apply (preserved_clocks mode glob locals rho nok (calls_op call sub0) (nilouts_op nilout) F N l) with (d := d) (s := t) (s' := s') (acc := e0) in V; auto.
      2: { apply Forall_forall. intros x _. apply pres. }
      destruct V as (w & V & _). rewrite (IHe _ _ _ _ E0 A0 lo T) by eauto. tauto.
    - cbn [tr] in E. rewrite st_fby.
      apply (same_chain (fun i => i) (fun d i => d + i) (fun d i => eq_refl) e l IHe H d s r s' E A lo T L V).
    - cbn [tr] in E. rewrite st_then.
      rewrite (same_chain (fun i => 0) (fun d i => d) (fun d i => eq_sym (Nat.add_0_r d)) e l IHe H d s r s' E A lo T L V).
      cbn zeta. replace (Z.of_nat T - Z.of_nat d - Z.of_nat 0)%Z with (Z.of_nat T - Z.of_nat d)%Z by lia. reflexivity.
  Qed.
End Settled.
