(** The default-mode translation preserves meaning. *)
From Coq Require Import String List ZArith Bool Arith Lia.
From Verif Require Import Model.Base Model.Scalar Model.Value Model.Ast Model.Errors Model.Interp Model.Surface Model.Translate
  Spec.CoreSem Spec.SurfaceSem Proofs.AstInd Proofs.OutBasics.
Import ListNotations.

(** ** Inversion of the stream meaning of analysis-level expressions. *)
Section CsemInv.
  Variable mode : ovf.
  Variable glob : ident -> option scalar.
  Variable rho : nat -> ident -> option nillable.
  Variable kappa : nat -> nat -> option val.
  Variable calls : nat -> list val -> val -> Prop.
  Variable nilouts : nat -> val -> Prop.
  Notation cs := (csem mode glob rho kappa calls nilouts).
  Notation css := (csems mode glob rho kappa calls nilouts).

  Lemma csem_lit : forall lo l T v, cs lo (ELit l) T v <-> v = VS (Defined (lit_scalar l)).
  Proof. split; [inversion 1; auto|intros ->; constructor]. Qed.
  Lemma csem_var : forall lo x d T v, cs lo (EVar x d) T v <->
    (d <= T /\ exists n, rho (T - d) x = Some n /\ v = VS n) \/ (T < d /\ v = VS Nil).
  Proof.
    split.
    - inversion 1; subst; [left; eauto|right; auto].
    - intros [(L & n & H & ->)|(L & ->)]; [eapply cs_var|eapply cs_past]; eauto.
  Qed.
  Lemma csem_global : forall lo x T v, cs lo (EGlobal x) T v <-> exists s, glob x = Some s /\ v = VS (Defined s).
  Proof. split; [inversion 1; subst; eauto|intros (s & H & ->); constructor; auto]. Qed.
  Lemma csem_tuple : forall lo l T v, cs lo (ETuple l) T v <-> exists vs, css lo l T vs /\ v = tuple_val vs.
  Proof. split; [inversion 1; subst; eauto|intros (s & H & ->); constructor; auto]. Qed.
  Lemma csems_nil : forall lo T vs, css lo [] T vs <-> vs = [].
  Proof. split; [inversion 1; subst; eauto|intros ->; constructor; auto]. Qed.
  Lemma csems_cons : forall lo e l T vs, css lo (e :: l) T vs <->
    exists v vs', vs = v :: vs' /\ cs lo e T v /\ css lo l T vs'.
  Proof. split; [inversion 1; subst; eauto|intros (v & vs' & -> & H & K); constructor; auto]. Qed.
  Lemma csem_pre : forall lo e T v, cs lo (EPre e) T v <-> cs lo e T v.
  Proof. split; [inversion 1; subst; eauto|constructor; auto]. Qed.
  Lemma csem_paren : forall lo e T v, cs lo (EParen e) T v <-> cs lo e T v.
  Proof. split; [inversion 1; subst; eauto|constructor; auto]. Qed.
  Lemma csem_bin : forall lo op a b T v, cs lo (EBin op a b) T v <->
    exists va vb, cs lo a T va /\ cs lo b T vb /\ val_bin mode op va vb = Ok v.
  Proof. split; [inversion 1; subst; eauto 6|intros (va & vb & A & B & C); econstructor; eauto]. Qed.
  Lemma csem_cmp : forall lo op a b T v, cs lo (ECmp op a b) T v <->
    exists va vb, cs lo a T va /\ cs lo b T vb /\ val_cmp op va vb = Ok v.
  Proof. split; [inversion 1; subst; eauto 6|intros (va & vb & A & B & C); econstructor; eauto]. Qed.
  Lemma csem_clock : forall lo op a b T v, cs lo (EClock op a b) T v <->
    exists va vb, cs lo a T va /\ cs lo b T vb /\ val_when op vb va = Ok v.
  Proof. split; [inversion 1; subst; eauto 6|intros (va & vb & A & B & C); econstructor; eauto]. Qed.
  Lemma csem_un : forall lo op a T v, cs lo (EUn op a) T v <-> exists va, cs lo a T va /\ val_un mode op va = Ok v.
  Proof. split; [inversion 1; subst; eauto 6|intros (va & A & C); econstructor; eauto]. Qed.
  Lemma csem_later : forall lo d a b T v, cs lo (ELater d a b) T v <->
    (T <= d /\ cs lo a T v) \/ (d < T /\ cs lo b T v).
  Proof. split; [inversion 1; subst; eauto 6|intros [(A & C)|(A & C)]; [eapply cs_before|eapply cs_after]; eauto]. Qed.
  Lemma csem_if : forall lo a b c T v, cs lo (EIf a b c) T v <->
    exists va vb vc, cs lo a T va /\ cs lo b T vb /\ cs lo c T vc /\ val_ifx va vb vc = Ok v.
  Proof. split; [inversion 1; subst; eauto 8|intros (va & vb & vc & A & B & C & D); econstructor; eauto]. Qed.
  Lemma csem_merge : forall lo a b c T v, cs lo (EMerge a b c) T v <->
    exists va vb vc, cs lo a T va /\ cs lo b T vb /\ cs lo c T vc /\ val_merge va vb vc = Ok v.
  Proof. split; [inversion 1; subst; eauto 8|intros (va & vb & vc & A & B & C & D); econstructor; eauto]. Qed.
  Lemma csem_fetch : forall lo id i n T v, cs lo (EFetch id i n) T v <-> kappa T id = Some v.
  Proof. split; [inversion 1; subst; auto|constructor; auto]. Qed.
  Lemma csem_sub : forall lo d id a T v, cs lo (ESub d id a) T v <->
    (T < d /\ nilouts id v) \/
    (d <= T /\ exists args, length args = S T - Nat.max lo d /\
      (forall j w, nth_error args j = Some w -> cs (Nat.max lo d) a (Nat.max lo d + j) w) /\ calls id args v).
  Proof.
    split; [inversion 1; subst; eauto 8|].
    intros [(A & C)|(A & args & B & C & D)]; [eapply cs_sub_wait|eapply cs_sub]; eauto.
  Qed.
End CsemInv.

(** ** Inversion of the reference meaning. *)
Section SemInv.
  Variable mode : ovf.
  Variable glob : ident -> option scalar.
  Variable locals : list ident.
  Variable rho : nat -> ident -> option nillable.
  Variable F : ident -> list val -> val -> Prop.
  Variable N : ident -> val -> Prop.
  Notation sm := (sem mode glob locals rho F N).
  Notation sms := (sems mode glob locals rho F N).

  Lemma sem_paren_iff : forall l b t v, sm (XParen l b) t v <-> exists vs, sms l t vs /\ v = tuple_val vs.
  Proof. split; [inversion 1; subst; eauto|intros (s & H & ->); constructor; auto]. Qed.
  Lemma sems_nil_iff : forall t vs, sms [] t vs <-> vs = [].
  Proof. split; [inversion 1; subst; eauto|intros ->; constructor; auto]. Qed.
  Lemma sems_cons_iff : forall e l t vs, sms (e :: l) t vs <-> exists v vs', vs = v :: vs' /\ sm e t v /\ sms l t vs'.
  Proof. split; [inversion 1; subst; eauto|intros (v & vs' & -> & H & K); constructor; auto]. Qed.
  Lemma sem_var_iff : forall x t v, sm (XVar x) t v <->
    (In x locals /\ (0 <= t)%Z /\ exists n, rho (Z.to_nat t) x = Some n /\ v = VS n) \/
    (In x locals /\ (t < 0)%Z /\ v = VS Nil) \/
    (~ In x locals /\ exists s, glob x = Some s /\ v = VS (Defined s)).
  Proof.
    split; [inversion 1; subst; eauto 10|].
    intros [(A & B & n & C & ->)|[(A & B & ->)|(A & s & B & ->)]];
      [eapply sem_var|eapply sem_past|eapply sem_global]; eauto.
  Qed.
  Lemma sem_call_iff : forall f l b t v, sm (XCall f l b) t v <->
    ((t < 0)%Z /\ N f v) \/
    ((0 <= t)%Z /\ exists args, length args = S (Z.to_nat t) /\
      (forall k w, nth_error args k = Some w -> sm (XParen l b) (Z.of_nat k) w) /\ F f args v).
  Proof.
    split; [inversion 1; subst; eauto 10|].
    intros [(A & B)|(A & args & B & C & D)]; [eapply sem_call_past|eapply sem_call]; eauto.
  Qed.
  Lemma sem_neg_iff : forall e t v, sm (XNeg e) t v <-> exists w, sm e t w /\ val_un mode Neg w = Ok v.
  Proof. split; [inversion 1; subst; eauto|intros (w & A & B); econstructor; eauto]. Qed.
  Lemma sem_not_iff : forall e t v, sm (XNot e) t v <-> exists w, sm e t w /\ val_un mode Not w = Ok v.
  Proof. split; [inversion 1; subst; eauto|intros (w & A & B); econstructor; eauto]. Qed.
  Lemma sem_pre_iff : forall e t v, sm (XPre e) t v <-> sm e (t - 1) v.
  Proof. split; [inversion 1; subst; eauto|econstructor; eauto]. Qed.
  Lemma sem_if_iff : forall a b c t v, sm (XIf a b c) t v <->
    exists va vb vc, sm a t va /\ sm b t vb /\ sm c t vc /\ val_ifx va vb vc = Ok v.
  Proof. split; [inversion 1; subst; eauto 8|intros (va & vb & vc & A & B & C & D); econstructor; eauto]. Qed.
  Lemma sem_merge_iff : forall a b c t v, sm (XMerge a b c) t v <->
    exists va vb vc, sm a t va /\ sm b t vb /\ sm c t vc /\ val_merge va vb vc = Ok v.
  Proof. split; [inversion 1; subst; eauto 8|intros (va & vb & vc & A & B & C & D); econstructor; eauto]. Qed.
  Lemma sem_bin_iff : forall e l t v, sm (XBin e l) t v <->
    exists w, sm e t w /\ bins mode glob locals rho F N w l t v.
  Proof. split; [inversion 1; subst; eauto|intros (w & A & B); econstructor; eauto]. Qed.
  Lemma sem_clock_iff : forall e l t v, sm (XClock e l) t v <->
    exists w, sm e t w /\ clocks mode glob locals rho F N w l t v.
  Proof. split; [inversion 1; subst; eauto|intros (w & A & B); econstructor; eauto]. Qed.
  Lemma sem_cmp2_iff : forall op a b t v, sm (XCmp a [(op, b)]) t v <->
    exists va vb, sm a t va /\ sm b t vb /\ val_cmp op va vb = Ok v.
  Proof. split; [inversion 1; subst; eauto|intros (va & vb & A & B & C); econstructor; eauto]. Qed.
  Lemma sem_fby_iff : forall e l t v, sm (XFby e l) t v <->
    exists e', nth_error (e :: l) (position (length l) t) = Some e' /\
      sm e' (t - Z.of_nat (position (length l) t)) v.
  Proof. split; [inversion 1; subst; eauto|intros (e' & A & B); econstructor; eauto]. Qed.
  Lemma sem_then_iff : forall e l t v, sm (XThen e l) t v <->
    exists e', nth_error (e :: l) (position (length l) t) = Some e' /\ sm e' t v.
  Proof. split; [inversion 1; subst; eauto|intros (e' & A & B); econstructor; eauto]. Qed.
End SemInv.

(** ** The blocks only grow. *)
Definition extends (s s' : tst) : Prop := exists l, t_blocks s' = t_blocks s ++ l.

Lemma extends_refl : forall s, extends s s.
Proof. intros s. exists []. rewrite app_nil_r. auto. Qed.
Lemma extends_trans : forall s s' s'', extends s s' -> extends s' s'' -> extends s s''.
Proof. intros s s' s'' [l E] [l' E']. exists (l ++ l'). rewrite E', E, app_assoc. auto. Qed.

Section Extends.
  Variable f : sexpr -> nat -> tst -> out (expr * tst).
  Definition grows (e : sexpr) : Prop := forall d s r s', result (f e d s) = Some (r, s') -> extends s s'.

  Lemma tr_elems_grows : forall l, Forall grows l -> forall d s r s',
    result (tr_elems f l d s) = Some (r, s') -> extends s s'.
  Proof.
    induction 1 as [|e l H _ IH]; intros d s r s' E; cbn in E; inv_out; [apply extends_refl|].
    eapply extends_trans; eauto.
  Qed.
  Lemma tr_left_grows : forall O (compose : O -> expr -> expr -> expr) l,
    Forall (fun p => grows (snd p)) l -> forall acc d s r s',
    result (tr_left f compose acc l d s) = Some (r, s') -> extends s s'.
  Proof.
    induction 1 as [|[op e] l H _ IH]; intros acc d s r s' E; cbn in E; inv_out; [apply extends_refl|].
    eapply extends_trans; eauto.
  Qed.
  Lemma tr_right_grows : forall bump compose,
    (forall d i a b s r s', compose d i a b s = (r, s') -> extends s s') ->
    forall l, Forall grows l -> forall i d s r s',
    result (tr_right f bump compose i l d s) = Some (r, s') -> extends s s'.
  Proof.
    intros bump compose C. induction 1 as [|e l H _ IH]; intros i d s r s' E; cbn in E; inv_out; [apply extends_refl|].
    destruct o.
    - destruct (compose d i e0 e1 t) as [x y] eqn:Ec. inv_out. apply C in Ec.
      eapply extends_trans; [|eauto]. eapply extends_trans; eauto.
    - inv_out. eapply extends_trans; eauto.
  Qed.
End Extends.

Lemma later_grows : forall d i a b s r s', later d i a b s = (r, s') -> extends s s'.
Proof. intros. inversion H; subst. apply extends_refl. Qed.
Lemma fby_registers_grows : forall d i a b s r s', fby_registers d i a b s = (r, s') -> extends s s'.
Proof. intros. inversion H; subst. exists []. simpl. rewrite app_nil_r. auto. Qed.
Lemma then_flips_grows : forall d i a b s r s', then_flips d i a b s = (r, s') -> extends s s'.
Proof. intros. inversion H; subst. exists []. simpl. rewrite app_nil_r. auto. Qed.

Lemma tr_grows : forall u locals e, grows (tr u locals) e.
Proof.
  intros u locals e. induction e using sexpr_ind'; intros d s r s' E; cbn [tr] in E.
  - inv_out. apply extends_refl.
  - inv_out. apply extends_refl.
  - inv_out. eapply tr_elems_grows; eauto.
  - inv_out. eapply extends_trans; [eapply tr_elems_grows; eauto|]. exists [f]. auto.
  - inv_out. eauto.
  - inv_out. eauto.
  - destruct u; inv_out; eauto. apply IHe in E0. destruct E0 as [l E0]. exists l. auto.
  - inv_out. eapply extends_trans; [|eauto]. eapply extends_trans; eauto.
  - inv_out. eapply extends_trans; [|eauto]. eapply extends_trans; eauto.
  - inv_out. eapply extends_trans; [eauto|]. eapply tr_left_grows; eauto.
  - inv_out. destruct l as [|[op e1] [|[op' e2] l]]; inv_out; eauto.
    eapply extends_trans; [eauto|]. inversion H; subst. eauto.
  - inv_out. eapply extends_trans; [eauto|]. eapply tr_left_grows; eauto.
  - inv_out. assert (G : extends s t).
    { destruct u; (eapply tr_right_grows; [|exact H|exact E0]); [apply fby_registers_grows|apply later_grows]. }
    destruct o; [|inv_out; eapply extends_trans; eauto].
    eapply extends_trans; [exact G|]. eapply extends_trans; [eauto|].
    destruct u; cbn in E; inversion E; subst; [exists []; simpl; rewrite app_nil_r; auto|apply extends_refl].
  - inv_out. assert (G : extends s t).
    { destruct u; (eapply tr_right_grows; [|exact H|exact E0]); [apply then_flips_grows|apply later_grows]. }
    destruct o; [|inv_out; eapply extends_trans; eauto].
    eapply extends_trans; [exact G|]. eapply extends_trans; [eauto|].
    destruct u; cbn in E; inversion E; subst; [exists []; simpl; rewrite app_nil_r; auto|apply extends_refl].
Qed.

(** ** Main result. *)
Section Preservation.
  Variable mode : ovf.
  Variable glob : ident -> option scalar.
  Variable locals : list ident.
  Variable rho : nat -> ident -> option nillable.
  Variable kappa : nat -> nat -> option val.
  Variable calls : nat -> list val -> val -> Prop.
  Variable nilouts : nat -> val -> Prop.
  Variable F : ident -> list val -> val -> Prop.
  Variable N : ident -> val -> Prop.
  Notation cs := (csem mode glob rho kappa calls nilouts).
  Notation css := (csems mode glob rho kappa calls nilouts).
  Notation sm := (sem mode glob locals rho F N).
  Notation sms := (sems mode glob locals rho F N).

  (** The call sites are instances of the named nodes. *)
  Definition agree (blocks : list ident) : Prop := forall id f, nth_error blocks id = Some f ->
    (forall args v, calls id args v <-> F f args v) /\ (forall v, nilouts id v <-> N f v).

  Lemma agree_extends : forall s s', extends s s' -> agree (t_blocks s') -> agree (t_blocks s).
  Proof.
    intros s s' [l E] A id f H. apply A. rewrite E, nth_error_app1; auto.
    apply nth_error_Some. rewrite H. discriminate.
  Qed.

  Definition preserved (e : sexpr) : Prop := forall d s e' s',
    result (tr false locals e d s) = Some (e', s') -> agree (t_blocks s') ->
    forall lo T v, lo <= d -> cs lo e' T v <-> sm e (Z.of_nat T - Z.of_nat d) v.

  Lemma preserved_elems : forall l, Forall preserved l -> forall d s es s',
    result (tr_elems (tr false locals) l d s) = Some (es, s') -> agree (t_blocks s') ->
    forall lo T vs, lo <= d -> css lo es T vs <-> sms l (Z.of_nat T - Z.of_nat d) vs.
  Proof.
    induction 1 as [|e l H _ IH]; intros d s es s' E A lo T vs L; cbn in E; inv_out.
    - rewrite csems_nil, sems_nil_iff. reflexivity.
    - rewrite csems_cons, sems_cons_iff.
      assert (A0 : agree (t_blocks t)).
      { eapply agree_extends; [|exact A]. eapply tr_elems_grows; [|exact E1].
        apply Forall_forall. intros x _. apply tr_grows. }
      split; intros (v & vs' & -> & B & C); exists v, vs'; (split; [reflexivity|]); split.
      + eapply H; eauto.
      + eapply IH; eauto.
      + eapply H; eauto.
      + eapply IH; eauto.
  Qed.

  Lemma preserved_bins : forall l, Forall (fun p => preserved (snd p)) l -> forall acc d s r s',
    result (tr_left (tr false locals) EBin acc l d s) = Some (r, s') -> agree (t_blocks s') ->
    forall lo T v, lo <= d ->
    cs lo r T v <-> exists w, cs lo acc T w /\ bins mode glob locals rho F N w l (Z.of_nat T - Z.of_nat d) v.
  Proof.
    induction 1 as [|[op e] l H _ IH]; intros acc d s r s' E A lo T v L; cbn in E; inv_out.
    - split; [intros B; exists v; split; auto; constructor|]. intros (w & B & C). inversion C; subst. auto.
    - assert (A0 : agree (t_blocks t)).
      { eapply agree_extends; [|exact A]. eapply tr_left_grows; [|exact E].
        apply Forall_forall. intros x _. apply tr_grows. }
      cbn [snd] in H. specialize (H _ _ _ _ E0 A0). rewrite IH; eauto. split.
      + intros (w & B & C). rewrite csem_bin in B. destruct B as (va & vb & B1 & B2 & B3).
        exists va. split; auto. econstructor; eauto. apply (H lo T vb L); auto.
      + intros (w & B & C). inversion C; subst.
        match goal with X : val_bin _ _ _ _ = Ok ?w' |- _ => exists w'; split; auto; rewrite csem_bin;
          do 2 eexists; split; [exact B|]; split; [|exact X] end.
        apply (H lo T _ L); auto.
  Qed.

  Lemma preserved_clocks : forall l, Forall (fun p => preserved (snd p)) l -> forall acc d s r s',
    result (tr_left (tr false locals) EClock acc l d s) = Some (r, s') -> agree (t_blocks s') ->
    forall lo T v, lo <= d ->
    cs lo r T v <-> exists w, cs lo acc T w /\ clocks mode glob locals rho F N w l (Z.of_nat T - Z.of_nat d) v.
  Proof.
    induction 1 as [|[op e] l H _ IH]; intros acc d s r s' E A lo T v L; cbn in E; inv_out.
    - split; [intros B; exists v; split; auto; constructor|]. intros (w & B & C). inversion C; subst. auto.
    - assert (A0 : agree (t_blocks t)).
      { eapply agree_extends; [|exact A]. eapply tr_left_grows; [|exact E].
        apply Forall_forall. intros x _. apply tr_grows. }
      cbn [snd] in H. specialize (H _ _ _ _ E0 A0). rewrite IH; eauto. split.
      + intros (w & B & C). rewrite csem_clock in B. destruct B as (va & vb & B1 & B2 & B3).
        exists va. split; auto. econstructor; eauto. apply (H lo T vb L); auto.
      + intros (w & B & C). inversion C; subst.
        match goal with X : val_when _ _ _ = Ok ?w' |- _ => exists w'; split; auto; rewrite csem_clock;
          do 2 eexists; split; [exact B|]; split; [|exact X] end.
        apply (H lo T _ L); auto.
  Qed.

  (** The operands from number [i] on: each is shifted by [sh] of its number. *)
  Lemma preserved_right : forall (sh : nat -> nat) bump, (forall d i, bump d i = d + sh i) ->
    forall l, Forall preserved l -> forall i d s o s',
    result (tr_right (tr false locals) bump later i l d s) = Some (o, s') -> agree (t_blocks s') ->
    match o with
    | None => l = []
    | Some r => l <> [] /\ forall lo T v, lo <= d ->
        cs lo r T v <-> exists e', let t := (Z.of_nat T - Z.of_nat d)%Z in
          let p := position (length l - 1) (t - Z.of_nat i) in
          nth_error l p = Some e' /\ sm e' (t - Z.of_nat (sh (i + p))) v
    end.
  Proof.
    intros sh bump Hb. induction 1 as [|e l H _ IH]; intros i d s o s' E A; cbn in E; inv_out; auto.
    rename t0 into s1.
    assert (A0 : agree (t_blocks t)).
    { eapply agree_extends; [|exact A]. destruct o0; cbn in E; inv_out; eapply tr_grows; eauto. }
    specialize (IH _ _ _ _ _ E0 A0).
    destruct o0 as [after|]; cbn in E; inv_out.
    - split; [discriminate|]. intros lo T v L. destruct IH as [Ne IH]. cbn zeta in *.
      rewrite csem_later. rewrite (H _ _ _ _ E1 A lo T) by (rewrite Hb; lia). rewrite Hb, (IH lo T v L). clear IH H.
      assert (Ll : length l <> 0) by (destruct l; [congruence|discriminate]).
      replace (length (e :: l) - 1) with (S (length l - 1)) by (simpl; lia).
      set (t' := (Z.of_nat T - Z.of_nat d)%Z).
      split.
      + intros [(C & D)|(C & e' & D & D')].
        * exists e. assert (P : position (S (length l - 1)) (t' - Z.of_nat i) = 0) by (unfold position, t'; lia).
          rewrite P. split; auto. rewrite Nat.add_0_r. replace (t' - Z.of_nat (sh i))%Z with (Z.of_nat T - Z.of_nat (d + sh i))%Z by (unfold t'; lia). auto.
        * exists e'. assert (P : position (S (length l - 1)) (t' - Z.of_nat i) = S (position (length l - 1) (t' - Z.of_nat (S i)))).
          { unfold position, t'. lia. }
          rewrite P. split; auto. replace (i + S (position (length l - 1) (t' - Z.of_nat (S i)))) with (S i + position (length l - 1) (t' - Z.of_nat (S i))) by lia. auto.
      + intros (e' & C & D). destruct (Nat.le_gt_cases T (d + i)) as [Le|Gt]; [left|right].
        * split; auto. assert (P : position (S (length l - 1)) (t' - Z.of_nat i) = 0) by (unfold position, t'; lia).
          rewrite P in C, D. cbn in C. inversion C; subst e'. rewrite Nat.add_0_r in D.
          replace (Z.of_nat T - Z.of_nat (d + sh i))%Z with (t' - Z.of_nat (sh i))%Z by (unfold t'; lia). auto.
        * split; auto. exists e'. assert (P : position (S (length l - 1)) (t' - Z.of_nat i) = S (position (length l - 1) (t' - Z.of_nat (S i)))).
          { unfold position, t'. lia. }
          rewrite P in C, D. split; auto. replace (S i + position (length l - 1) (t' - Z.of_nat (S i))) with (i + S (position (length l - 1) (t' - Z.of_nat (S i)))) by lia. auto.
    - split; [discriminate|]. intros lo T v L. cbn zeta. rewrite (H _ _ _ _ E1 A lo T) by (rewrite Hb; lia).
      assert (P : position (length [e] - 1) (Z.of_nat T - Z.of_nat d - Z.of_nat i) = 0) by (unfold position; simpl; lia).
      rewrite P. rewrite Nat.add_0_r, Hb. replace (Z.of_nat T - Z.of_nat (d + sh i))%Z with (Z.of_nat T - Z.of_nat d - Z.of_nat (sh i))%Z by lia.
      split; [intros C; exists e; auto|]. intros (e' & C & D). cbn in C. inversion C; subst. auto.
  Qed.

  (** The whole chain. *)
  Lemma preserved_chain : forall (sh : nat -> nat) bump, (forall d i, bump d i = d + sh i) -> sh 0 = 0 ->
    forall e l, preserved e -> Forall preserved l -> forall d s r s',
    result ('(acc, s) <~ tr_right (tr false locals) bump later 1 l d s;;
            '(e, s) <~ tr false locals e (bump d 0) s;;
            match acc with
            | None => done (e, s)
            | Some after => done (later d 0 e after s)
            end) = Some (r, s') -> agree (t_blocks s') ->
    forall lo T v, lo <= d ->
    cs lo r T v <-> exists e', let t := (Z.of_nat T - Z.of_nat d)%Z in
      nth_error (e :: l) (position (length l) t) = Some e' /\
      sm e' (t - Z.of_nat (sh (position (length l) t))) v.
  Proof.
    intros sh bump Hb S0 e l He Hl d s r s' E A lo T v L.
    assert (R : result (tr_right (tr false locals) bump later 0 (e :: l) d s) = Some (Some r, s')).
    { cbn. inv_out. rewrite result_obind, E0. rewrite result_obind, E1. destruct o; cbn in *; inv_out; auto. }
    apply (preserved_right sh bump Hb (e :: l) (Forall_cons e He Hl)) in R; auto.
    destruct R as [_ R]. rewrite (R lo T v L). cbn zeta.
    replace (length (e :: l) - 1) with (length l) by (simpl; lia).
    replace (Z.of_nat T - Z.of_nat d - Z.of_nat 0)%Z with (Z.of_nat T - Z.of_nat d)%Z by lia. reflexivity.
  Qed.

  Lemma tr_var_local : forall x d, In x locals -> tr_var locals x d = EVar x d.
  Proof.
    intros x d I. unfold tr_var. replace (existsb (String.eqb x) locals) with true; auto.
    symmetry. apply existsb_exists. exists x. split; auto. apply String.eqb_refl.
  Qed.
  Lemma tr_var_global : forall x d, ~ In x locals -> tr_var locals x d = EGlobal x.
  Proof.
    intros x d I. unfold tr_var. destruct (existsb _ _) eqn:E; auto. exfalso. apply I.
    apply existsb_exists in E. destruct E as (y & J & E). apply String.eqb_eq in E. subst; auto.
  Qed.

  Lemma paren_csem : forall es b lo T v, cs lo (paren es b) T v <-> exists vs, css lo es T vs /\ v = tuple_val vs.
  Proof.
    intros es b lo T v. unfold paren. destruct es as [|e [|e' es]]; try destruct b; try apply csem_tuple.
    rewrite csem_paren. split.
    - intros H. exists [v]. split; auto. repeat constructor. auto.
    - intros (vs & H & ->). rewrite csems_cons in H. destruct H as (w & vs' & -> & A & B).
      apply csems_nil in B. subst. auto.
  Qed.

  Lemma preserved_lit : forall l, preserved (XLit l).
  Proof.
    intros l d s r s' E A lo T v L. cbn [tr] in E. inv_out.
    destruct l; unfold tr_lit in E0; try destruct (in_i64 _); inv_out; rewrite csem_lit;
      (split; [intros ->; constructor|inversion 1; auto]).
  Qed.

  Lemma preservation : forall e, preserved e.
  Proof.
    intros e. induction e using sexpr_ind'; intros d s r s' E A lo T v L.
    - eapply preserved_lit; eauto.
    - cbn in E. inv_out. rewrite sem_var_iff. destruct (in_dec string_dec x locals) as [I|I].
      + rewrite tr_var_local, csem_var by auto. split.
        * intros [(C & n & D & ->)|(C & ->)]; [left|right; left].
          -- repeat split; auto; [lia|]. exists n. split; auto. rewrite <- D. f_equal. lia.
          -- repeat split; auto. lia.
        * intros [(_ & C & n & D & ->)|[(_ & C & ->)|(C & _)]]; [left|right|contradiction].
          -- split; [lia|]. exists n. split; auto. rewrite <- D. f_equal. lia.
          -- split; auto. lia.
      + rewrite tr_var_global, csem_global by auto. split.
        * intros C. right. right. auto.
        * intros [(C & _)|[(C & _)|(_ & C)]]; auto; contradiction.
    - cbn in E. inv_out. rewrite paren_csem, sem_paren_iff.
      split; intros (vs & B & ->); exists vs; (split; auto); eapply preserved_elems; eauto.
    - cbn in E. inv_out. rewrite csem_sub, sem_call_iff.
      assert (A0 : agree (t_blocks t)) by (eapply agree_extends; [|exact A]; exists [f]; auto).
      destruct (A (length (t_blocks t)) f) as [A1 A2].
      { simpl. rewrite nth_error_app2, Nat.sub_diag; auto. }
      replace (Nat.max lo d) with d by lia.
      split.
      + intros [(C & D)|(C & args & C1 & C2 & C3)]; [left|right].
        * split; [lia|]. apply A2. auto.
        * split; [lia|]. exists args. split; [lia|]. split; [|apply A1; auto].
          intros k w K. specialize (C2 _ _ K). rewrite paren_csem in C2. rewrite sem_paren_iff.
          destruct C2 as (vs & C2 & ->). exists vs. split; auto.
          replace (Z.of_nat k) with (Z.of_nat (d + k) - Z.of_nat d)%Z by lia. apply (preserved_elems _ H _ _ _ _ E0 A0 d (d + k) vs (le_n d)); auto.
      + intros [(C & D)|(C & args & C1 & C2 & C3)]; [left|right].
        * split; [lia|]. apply A2. auto.
        * split; [lia|]. exists args. split; [lia|]. split; [|apply A1; auto].
          intros k w K. specialize (C2 _ _ K). rewrite paren_csem. rewrite sem_paren_iff in C2.
          destruct C2 as (vs & C2 & ->). exists vs. split; auto.
          replace (Z.of_nat k) with (Z.of_nat (d + k) - Z.of_nat d)%Z in C2 by lia. apply (preserved_elems _ H _ _ _ _ E0 A0 d (d + k) vs (le_n d)); auto.
    - cbn in E. inv_out. rewrite csem_un, sem_neg_iff.
      split; intros (w & B & C); exists w; (split; auto); eapply IHe; eauto.
    - cbn in E. inv_out. rewrite csem_un, sem_not_iff.
      split; intros (w & B & C); exists w; (split; auto); eapply IHe; eauto.
    - cbn in E. inv_out. rewrite csem_pre, sem_pre_iff. rewrite (IHe _ _ _ _ E0 A lo T v) by lia.
      replace (Z.of_nat T - Z.of_nat d - 1)%Z with (Z.of_nat T - Z.of_nat (S d))%Z by lia. reflexivity.
    - cbn in E. inv_out. rewrite csem_if, sem_if_iff.
      assert (A1 : agree (t_blocks t0)) by (eapply agree_extends; [eapply tr_grows; eauto|auto]).
      assert (A0 : agree (t_blocks t)) by (eapply agree_extends; [eapply tr_grows; eauto|auto]).
      split; intros (va & vb & vc & B & C & D & G); exists va, vb, vc; (split; [eapply IHe1; eauto|]);
        (split; [eapply IHe2; eauto|]); (split; [eapply IHe3; eauto|auto]).
    - cbn in E. inv_out. rewrite csem_merge, sem_merge_iff.
      assert (A1 : agree (t_blocks t0)) by (eapply agree_extends; [eapply tr_grows; eauto|auto]).
      assert (A0 : agree (t_blocks t)) by (eapply agree_extends; [eapply tr_grows; eauto|auto]).
      split; intros (va & vb & vc & B & C & D & G); exists va, vb, vc; (split; [eapply IHe1; eauto|]);
        (split; [eapply IHe2; eauto|]); (split; [eapply IHe3; eauto|auto]).
    - cbn in E. inv_out. rewrite sem_bin_iff. rewrite (preserved_bins _ H _ _ _ _ _ E A lo T v L).
      assert (A0 : agree (t_blocks t)).
      { eapply agree_extends; [|exact A]. eapply tr_left_grows; [|exact E]. apply Forall_forall. intros x _. apply tr_grows. }
      split; intros (w & B & C); exists w; (split; auto); eapply IHe; eauto.
    - cbn in E. inv_out. destruct l as [|[op e1] [|[op' e2] l]]; inv_out.
      + rewrite (IHe _ _ _ _ E0 A lo T v L). split; [constructor; auto|inversion 1; auto].
      + rewrite csem_cmp, sem_cmp2_iff. inversion H; subst. cbn [snd] in *.
        assert (A0 : agree (t_blocks t)) by (eapply agree_extends; [eapply tr_grows; eauto|auto]).
        match goal with X : preserved e1 |- _ => rename X into P1 end.
        split; intros (va & vb & B & C & D); exists va, vb; (split; [eapply IHe; eauto|]); (split; [eapply P1; eauto|auto]).
    - cbn in E. inv_out. rewrite sem_clock_iff. rewrite (preserved_clocks _ H _ _ _ _ _ E A lo T v L).
      assert (A0 : agree (t_blocks t)).
      { eapply agree_extends; [|exact A]. eapply tr_left_grows; [|exact E]. apply Forall_forall. intros x _. apply tr_grows. }
      split; intros (w & B & C); exists w; (split; auto); eapply IHe; eauto.
    - cbn [tr] in E. rewrite sem_fby_iff.
      apply (preserved_chain (fun i => i) (fun d i => d + i) (fun d i => eq_refl) eq_refl e l IHe H d s r s' E A lo T v L).
    - cbn [tr] in E. rewrite sem_then_iff.
      rewrite (preserved_chain (fun i => 0) (fun d i => d) (fun d i => eq_sym (Nat.add_0_r d)) eq_refl e l IHe H d s r s' E A lo T v L).
      cbn zeta. replace (Z.of_nat T - Z.of_nat d - Z.of_nat 0)%Z with (Z.of_nat T - Z.of_nat d)%Z by lia. reflexivity.
  Qed.
End Preservation.
