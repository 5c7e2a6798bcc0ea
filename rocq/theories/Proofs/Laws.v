(** Equational reasoning inside nodes. *)
From Coq Require Import String List ZArith Bool Arith Lia Relations SpecFloat.
From Verif Require Import Model.Base Model.Scalar Model.Value Model.Register Model.Ast Model.Errors Model.Interp Model.Options Model.Surface Model.Translate
  Model.Pipeline Model.Extern
  Spec.StepSpec Spec.SurfaceSem Spec.ProgramSem Spec.SettledSem Spec.SafetySpec Spec.ExternSem Spec.SourceCausal Spec.Replace Spec.Laws
  Proofs.AstInd Proofs.OutBasics Proofs.InterpBasics Proofs.ProgramProofs Proofs.PipelineProofs Proofs.Settled Proofs.Exact Proofs.Replace Proofs.Asserts.
Import ListNotations.

(** ** Contexts. *)
Lemma nth_change : forall A (e e' : A) l r k x, nth_error (l ++ e :: r) k = Some x ->
  exists x', nth_error (l ++ e' :: r) k = Some x' /\ (x = x' \/ x = e /\ x' = e').
Proof.
  intros A e e' l r. induction l as [|y l IH]; intros [|k] x H; cbn in *; eauto. inversion H; subst. eauto.
Qed.

Section Contexts.
  Variable mode : ovf.
  Variable glob : ident -> option scalar.
  Notation ref := (refines mode glob).

  Lemma refines_refl : forall e, ref e e.
  Proof. intros e ? ? ? ? ?. auto. Qed.
  Lemma refines_trans : forall a b c, ref a b -> ref b c -> ref a c.
  Proof. intros a b c H K L rho F N t. destruct (H L rho F N t), (K L rho F N t). auto. Qed.

  Section Here.
    Variable L : list ident.
    Variable rho : nat -> ident -> option nillable.
    Variable F : ident -> list val -> val -> Prop.
    Variable N : ident -> val -> Prop.
    Variables e e' : sexpr.
    Hypothesis R : ref e e'.
    Notation sm := (sem mode glob L rho F N).
    Notation st := (settled mode glob L rho F N).

    Lemma go : forall t v, sm e t v -> sm e' t v. Proof. intros t. apply (R L rho F N t). Qed.
    Lemma gos : forall t, st e t -> st e' t. Proof. intros t. apply (R L rho F N t). Qed.

    Lemma sems_change : forall l r t vs, sems mode glob L rho F N (l ++ e :: r) t vs -> sems mode glob L rho F N (l ++ e' :: r) t vs.
    Proof. induction l as [|a l IH]; cbn; intros r t vs H; inversion H; subst; constructor; auto using go. Qed.
    Lemma bins_change : forall op l r t w v, bins mode glob L rho F N w (l ++ (op, e) :: r) t v -> bins mode glob L rho F N w (l ++ (op, e') :: r) t v.
    Proof. induction l as [|a l IH]; cbn; intros r t w v H; inversion H; subst; econstructor; eauto using go. Qed.
    Lemma clocks_change : forall op l r t w v, clocks mode glob L rho F N w (l ++ (op, e) :: r) t v -> clocks mode glob L rho F N w (l ++ (op, e') :: r) t v.
    Proof. induction l as [|a l IH]; cbn; intros r t w v H; inversion H; subst; econstructor; eauto using go. Qed.
    Lemma all_change : forall l r t, all_settled mode glob L rho F N (l ++ e :: r) t -> all_settled mode glob L rho F N (l ++ e' :: r) t.
    Proof. induction l as [|a l IH]; cbn; intros r t [H K]; split; auto using gos. Qed.
    Lemma pairs_change : forall O (op : O) l r t, pairs_settled mode glob L rho F N (l ++ (op, e) :: r) t -> pairs_settled mode glob L rho F N (l ++ (op, e') :: r) t.
    Proof. induction l as [|[o a] l IH]; cbn; intros r t [H K]; split; auto using gos. Qed.
  End Here.

  Lemma refines_within : forall (R : sexpr -> sexpr -> Prop), (forall e e', R e e' -> ref e e') -> forall e e', within R e e' -> ref e e'.
  Proof.
    intros R HR E E' W. induction W; auto; intros L rho F N t; pose proof (go L rho F N _ _ IHW) as G; pose proof (gos L rho F N _ _ IHW) as S.
    - split; [intros v H; inversion H; subst; constructor; eapply sems_change; eauto|]. rewrite !st_paren. eapply all_change; eauto.
    - split; [intros v H; inversion H; subst|].
      + apply sem_call_past; auto.
      + eapply sem_call; eauto. intros k w J. match goal with H : forall k w, _ -> _ |- _ => specialize (H k w J); inversion H; subst end.
        constructor. eapply sems_change; eauto.
      + rewrite !st_call. intros H T. eapply all_change; eauto.
    - split; [intros v H; inversion H; subst; econstructor; eauto|apply S].
    - split; [intros v H; inversion H; subst; econstructor; eauto|apply S].
    - split; [intros v H; inversion H; subst; econstructor; eauto|apply S].
    - split; [intros v H; inversion H; subst; econstructor; eauto|cbn; intros (A & B & C); auto].
    - split; [intros v H; inversion H; subst; econstructor; eauto|cbn; intros (A & B & C); auto].
    - split; [intros v H; inversion H; subst; econstructor; eauto|cbn; intros (A & B & C); auto].
    - split; [intros v H; inversion H; subst; econstructor; eauto|cbn; intros (A & B & C); auto].
    - split; [intros v H; inversion H; subst; econstructor; eauto|cbn; intros (A & B & C); auto].
    - split; [intros v H; inversion H; subst; econstructor; eauto|cbn; intros (A & B & C); auto].
    - split; [intros v H; inversion H; subst; econstructor; eauto|rewrite !st_bin; intros [A B]; auto].
    - split; [intros v H; inversion H; subst; econstructor; eauto; eapply bins_change; eauto|rewrite !st_bin; intros [A B]; split; auto; eapply pairs_change; eauto].
    - split; [intros v H; inversion H; subst; [apply sem_cmp1|eapply sem_cmp2]; eauto|rewrite !st_cmp; intros [A B]; auto].
    - split; [intros v H; inversion H; subst; eapply sem_cmp2; eauto|rewrite !st_cmp; cbn; intros (A & B & _); auto].
    - split; [intros v H; inversion H; subst; econstructor; eauto|rewrite !st_clock; intros [A B]; auto].
    - split; [intros v H; inversion H; subst; econstructor; eauto; eapply clocks_change; eauto|rewrite !st_clock; intros [A B]; split; auto; eapply pairs_change; eauto].
    - assert (Len : length l' = length l).
      { assert (X : length (a' :: l') = length (a :: l)) by (rewrite H, H0, !app_length; auto). cbn in X. lia. }
      split; [intros v X; inversion X; subst|rewrite !st_fby, Len; intros A k x J P].
      + rewrite H in *. match goal with J : nth_error _ _ = Some _ |- _ => destruct (nth_change _ e e' _ _ _ _ J) as (x' & J' & Ex) end.
        rewrite <- H0, <- Len in J'. rewrite <- ?Len in *. apply (sem_fby _ _ _ _ _ _ _ _ _ x'); [exact J'|]. destruct Ex as [<-|[-> ->]]; auto.
      + rewrite H0 in J. destruct (nth_change _ e' e _ _ _ _ J) as (x' & J' & Ex). rewrite <- H in J'. destruct (A k x' J' P) as (A1 & v & A2).
        destruct Ex as [->|[-> ->]]; eauto.
    - assert (Len : length l' = length l).
      { assert (X : length (a' :: l') = length (a :: l)) by (rewrite H, H0, !app_length; auto). cbn in X. lia. }
      split; [intros v X; inversion X; subst|rewrite !st_then, Len; intros A k x J P].
      + rewrite H in *. match goal with J : nth_error _ _ = Some _ |- _ => destruct (nth_change _ e e' _ _ _ _ J) as (x' & J' & Ex) end.
        rewrite <- H0, <- Len in J'. rewrite <- ?Len in *. apply (sem_then _ _ _ _ _ _ _ _ _ x'); [exact J'|]. destruct Ex as [<-|[-> ->]]; auto.
      + rewrite H0 in J. destruct (nth_change _ e' e _ _ _ _ J) as (x' & J' & Ex). rewrite <- H in J'. destruct (A k x' J' P) as (A1 & v & A2).
        destruct Ex as [->|[-> ->]]; eauto.
  Qed.

  Lemma refines_many : forall (R : sexpr -> sexpr -> Prop), (forall e e', R e e' -> ref e e') -> forall e e', clos_refl_trans _ (within R) e e' -> ref e e'.
  Proof.
    intros R HR e e' H. induction H; [eapply refines_within; eauto|apply refines_refl|eapply refines_trans; eauto].
  Qed.

  Lemma rewritten_kept : forall (R : sexpr -> sexpr -> Prop), (forall e e', R e e' -> ref e e') -> forall f i o v l l', Forall2 (rewritten R) l l' ->
    solutions_kept mode glob (mkSNode f i o v l) (mkSNode f i o v l').
  Proof.
    intros R HR f i o v l l' Hl F N ins outs (Len & rho & M). split; auto. exists rho. intros T vv oo Hv Ho.
    destruct (M T vv oo Hv Ho) as (A & B & C). split; auto. split; auto. cbn [s_defs] in *.
    change (node_vars (mkSNode f i o v l')) with (node_vars (mkSNode f i o v l)).
    intros s J. destruct (forall2_in_right _ _ _ Hl _ J) as (s0 & J0 & W). destruct (B s0 J0) as [H1 H2].
    destruct W as [t e e' W|e e' W]; pose proof (refines_many R HR _ _ W (node_vars (mkSNode f i o v l)) rho F N (Z.of_nat T)) as [G S]; cbn in *.
    - destruct H1 as (w & X & Y). split; [exists w; split; auto|auto].
    - split; auto.
  Qed.
End Contexts.

(** ** The laws. *)
Lemma sfadd_comm : forall prec emax x y, SFadd prec emax x y = SFadd prec emax y x.
Proof.
  intros prec emax [s|s| |s m e] [s'|s'| |s' m' e']; cbn; auto; try (destruct s, s'; reflexivity).
  rewrite (Z.min_comm e' e). f_equal. apply Z.add_comm.
Qed.
Lemma sfmul_comm : forall prec emax x y, SFmul prec emax x y = SFmul prec emax y x.
Proof.
  intros prec emax [s|s| |s m e] [s'|s'| |s' m' e']; cbn; auto; rewrite ?(xorb_comm s' s); auto.
  rewrite (Pos.mul_comm m' m), (Z.add_comm e' e). reflexivity.
Qed.
Lemma scalar_comm : forall mode op x y, commutes op -> scalar_bin mode op x y = scalar_bin mode op y x.
Proof.
  intros mode op x y [<-|[<-|[<-|[<-|[<-|[]]]]]]; destruct x, y; cbn; auto.
  - rewrite Z.add_comm. auto.
  - rewrite sfadd_comm. auto.
  - rewrite Z.mul_comm. auto.
  - rewrite sfmul_comm. auto.
  - rewrite Z.land_comm. auto.
  - rewrite andb_comm. auto.
  - rewrite Z.lor_comm. auto.
  - rewrite orb_comm. auto.
  - rewrite Z.lxor_comm. auto.
  - rewrite xorb_comm. auto.
Qed.
Lemma val_comm : forall mode op a b v, commutes op -> val_bin mode op a b = Ok v -> val_bin mode op b a = Ok v.
Proof.
  intros mode op [x|l] [y|l'] v C H; cbn in *; try discriminate. destruct x, y; cbn in *; auto. rewrite scalar_comm; auto.
Qed.

Lemma sfcompare_swap : forall x y, SFcompare x y = option_map CompOpp (SFcompare y x).
Proof.
  intros [s|s| |s m e] [s'|s'| |s' m' e']; cbn; auto; try (destruct s; try destruct s'; reflexivity).
  rewrite (Z.compare_antisym e' e). change (Pos.compare_cont Datatypes.Eq m m') with (m ?= m')%positive.
  change (Pos.compare_cont Datatypes.Eq m' m) with (m' ?= m)%positive. rewrite (Pos.compare_antisym m' m).
  destruct s, s'; cbn; auto; destruct (e' ?= e)%Z; cbn; auto; destruct (m' ?= m)%positive; auto.
Qed.
Lemma bool_compare_swap : forall x y, bool_compare x y = CompOpp (bool_compare y x).
Proof. intros [] []; auto. Qed.
Lemma scalar_cmp_swap : forall x y, scalar_cmp x y = match scalar_cmp y x with Ok c => Ok (option_map CompOpp c) | Panic p => Panic p end.
Proof.
  intros [] []; cbn; auto; [rewrite Z.compare_antisym|rewrite sfcompare_swap|rewrite bool_compare_swap]; auto.
Qed.
Lemma scalar_eq_swap : forall x y, scalar_eq x y = scalar_eq y x.
Proof.
  intros [] []; cbn; auto; f_equal; [apply Z.eqb_sym| |apply eq_true_iff_eq; rewrite !eqb_true_iff; intuition].
  unfold SFeqb. rewrite sfcompare_swap. destruct (SFcompare f0 f) as [[]|]; auto.
Qed.
Lemma val_cmp_swap : forall op a b v, val_cmp op a b = Ok v -> val_cmp (mirror op) b a = Ok v.
Proof.
  intros op [x|l] [y|l'] v H; cbn in *; try discriminate. destruct x, y; destruct op; cbn in *; auto;
    unfold cmp_ord, cmp_eq, nil_cmp, nil_eq in *; rewrite ?(scalar_eq_swap s0 s) in *; rewrite ?(scalar_cmp_swap s0 s) in *; cbn in *;
    try (destruct (scalar_cmp s s0) as [[[]|]|]; cbn in *; auto; fail); auto.
Qed.

Section Laws.
  Variable mode : ovf.
  Variable glob : ident -> option scalar.
  Variable L : list ident.
  Variable rho : nat -> ident -> option nillable.
  Variable F : ident -> list val -> val -> Prop.
  Variable N : ident -> val -> Prop.
  Notation sm := (sem mode glob L rho F N).
  Notation st := (settled mode glob L rho F N).

  Lemma pre_sems : forall l t vs, sems mode glob L rho F N l (t - 1) vs <-> sems mode glob L rho F N (map XPre l) t vs.
  Proof.
    induction l as [|e l IH]; intros t vs; cbn; split; intros H; inversion H; subst; constructor; try (apply IH; auto; fail).
    - constructor. auto.
    - match goal with H : sem _ _ _ _ _ _ (XPre _) _ _ |- _ => inversion H; auto end.
  Qed.
  Notation pres := (map (fun p => (fst p, XPre (snd p)))).
  Lemma pre_bins : forall l t w v, bins mode glob L rho F N w l (t - 1) v <-> bins mode glob L rho F N w (pres l) t v.
  Proof.
    induction l as [|[op e] l IH]; intros t w v; cbn; split; intros H; inversion H; subst; econstructor; try (apply IH; eauto; fail); eauto.
    - constructor. eauto.
    - match goal with H : sem _ _ _ _ _ _ (XPre _) _ _ |- _ => inversion H; eauto end.
  Qed.
  Lemma pre_clocks : forall l t w v, clocks mode glob L rho F N w l (t - 1) v <-> clocks mode glob L rho F N w (pres l) t v.
  Proof.
    induction l as [|[op e] l IH]; intros t w v; cbn; split; intros H; inversion H; subst; econstructor; try (apply IH; eauto; fail); eauto.
    - constructor. eauto.
    - match goal with H : sem _ _ _ _ _ _ (XPre _) _ _ |- _ => inversion H; eauto end.
  Qed.
  Lemma pre_all : forall l t, all_settled mode glob L rho F N l (t - 1) <-> all_settled mode glob L rho F N (map XPre l) t.
  Proof. induction l as [|e l IH]; intros t; cbn; [tauto|]. rewrite IH. tauto. Qed.
  Lemma pre_pairs : forall O (l : list (O * sexpr)) t, pairs_settled mode glob L rho F N l (t - 1) <-> pairs_settled mode glob L rho F N (pres l) t.
  Proof. induction l as [|[op e] l IH]; intros t; cbn; [tauto|]. rewrite IH. tauto. Qed.
  Lemma pre_iff : forall e t v, sm (XPre e) t v <-> sm e (t - 1) v.
  Proof. intros e t v. split; intros H; [inversion H; auto|constructor; auto]. Qed.

  Lemma position_next : forall n t, (0 < t)%Z -> position (S n) t = S (position n (t - 1)).
  Proof. intros n t H. unfold position. lia. Qed.
  Lemma position_low : forall n t, (t <= 0)%Z -> position n t = 0.
  Proof. intros n t H. unfold position. lia. Qed.

  Lemma fby_sem : forall a b l t v, sm (XFby a (b :: l)) t v <-> ((t <= 0)%Z /\ sm a t v) \/ ((0 < t)%Z /\ sm (XFby b l) (t - 1) v).
  Proof.
    intros a b l t v. destruct (Z_le_gt_dec t 0) as [T|T].
    - split.
      + intros H. inversion H; subst. left. split; auto. cbn [length] in *. rewrite (position_low _ _ T) in *. cbn in *. rewrite Z.sub_0_r in *. congruence.
      + intros [[_ H]|[X _]]; [|lia]. apply (sem_fby _ _ _ _ _ _ a (b :: l) t a); rewrite (position_low _ _ T); auto. cbn. rewrite Z.sub_0_r. auto.
    - assert (P := position_next (length l) t (Z.gt_lt _ _ T)). split.
      + intros H. inversion H; subst. right. split; [lia|]. cbn [length] in *. rewrite P in *. cbn [nth_error] in *. eapply sem_fby; eauto.
        replace (t - 1 - Z.of_nat (position (length l) (t - 1)))%Z with (t - Z.of_nat (S (position (length l) (t - 1))))%Z by lia. auto.
      + intros [[X _]|[_ H]]; [lia|]. inversion H; subst. eapply sem_fby; cbn [length]; rewrite P; cbn [nth_error]; eauto.
        replace (t - Z.of_nat (S (position (length l) (t - 1))))%Z with (t - 1 - Z.of_nat (position (length l) (t - 1)))%Z by lia. auto.
  Qed.

  Lemma fby_value : forall b l t, st (XFby b l) t -> exists v, sm (XFby b l) t v.
  Proof.
    intros b l t H. rewrite st_fby in H. set (k := position (length l) t) in *.
    destruct (nth_error (b :: l) k) as [x|] eqn:E.
    - destruct (H k x E (le_n _)) as (_ & v & V). exists v. eapply sem_fby; eauto.
    - apply nth_error_None in E. unfold k, position in E. cbn [length] in E. lia.
  Qed.
  Lemma fby_settled : forall a b l t, st (XFby a (b :: l)) t <-> ((t <= 0)%Z -> st a t /\ exists v, sm a t v) /\ st (XFby b l) (t - 1).
  Proof.
    intros a b l t. rewrite !st_fby. cbn [length]. split.
    - intros H. split.
      + intros T. destruct (H 0 a eq_refl) as [A B]; [rewrite position_low; auto|]. cbn in A, B. rewrite Z.sub_0_r in *. auto.
      + intros k x J P. replace (t - 1 - Z.of_nat k)%Z with (t - Z.of_nat (S k))%Z by lia. apply H; auto. unfold position in *. lia.
    - intros [A B] [|k] x J P; cbn [nth_error] in J.
      + inversion J; subst. cbn. rewrite Z.sub_0_r. apply A. unfold position in P. lia.
      + replace (t - Z.of_nat (S k))%Z with (t - 1 - Z.of_nat k)%Z by lia. apply B; auto. unfold position in *. lia.
  Qed.
  Lemma fby_one : forall c t, (forall v, sm (XFby c []) t v <-> sm c t v) /\ (st (XFby c []) t <-> st c t /\ exists v, sm c t v).
  Proof.
    intros c t. assert (P : position 0 t = 0) by (unfold position; lia). split.
    - intros v. split; intros H.
      + inversion H; subst. cbn [length] in *. rewrite P in *. cbn in *. rewrite Z.sub_0_r in *. congruence.
      + apply (sem_fby _ _ _ _ _ _ c [] t c); cbn [length]; rewrite P; cbn; auto. rewrite Z.sub_0_r. auto.
    - rewrite st_fby. cbn [length]. rewrite P. split.
      + intros H. destruct (H 0 c eq_refl (le_n _)) as [A B]. cbn in A, B. rewrite Z.sub_0_r in *. auto.
      + intros H [|[|k]] x J _; try discriminate J. inversion J; subst. cbn. rewrite Z.sub_0_r. auto.
  Qed.
  Lemma then_two : forall a c t, (forall v, sm (XThen a [c]) t v <-> ((t <= 0)%Z /\ sm a t v) \/ ((0 < t)%Z /\ sm c t v)) /\
    (st (XThen a [c]) t <-> ((t <= 0)%Z -> st a t /\ exists v, sm a t v) /\ st c t /\ exists v, sm c t v).
  Proof.
    intros a c t. split.
    - intros v. destruct (Z_le_gt_dec t 0) as [T|T].
      + split.
        * intros H. inversion H; subst. cbn [length] in *. rewrite (position_low _ _ T) in *. cbn in *. left. split; auto. congruence.
        * intros [[_ H]|[X _]]; [|lia]. apply (sem_then _ _ _ _ _ _ a [c] t a); auto. cbn [length]. rewrite (position_low _ _ T). auto.
      + assert (P : position 1 t = 1) by (unfold position; lia). split.
        * intros H. inversion H; subst. cbn [length] in *. rewrite P in *. cbn in *. right. split; [lia|]. congruence.
        * intros [[X _]|[_ H]]; [lia|]. apply (sem_then _ _ _ _ _ _ a [c] t c); auto. cbn [length]. rewrite P. auto.
    - rewrite st_then. cbn [length]. split.
      + intros H. split.
        * intros T. apply (H 0 a eq_refl). rewrite position_low; auto.
        * apply (H 1 c eq_refl). unfold position. lia.
      + intros [A B] [|[|k]] x J P; cbn in J; try (destruct k; discriminate J); inversion J; subst; auto. apply A. unfold position in P. lia.
  Qed.

  Definition same_here (e e' : sexpr) (t : Z) : Prop := (forall v, sm e t v <-> sm e' t v) /\ (st e t <-> st e' t).

  Lemma law_same : forall e e', law e e' -> forall t, same_here e e' t.
  Proof.
    intros e e' [] t; split; try intros v.
    - split; intros H; [inversion H; subst; match goal with H : sems _ _ _ _ _ _ _ _ _ |- _ => inversion H; subst; match goal with H : sems _ _ _ _ _ _ [] _ _ |- _ => inversion H; subst end; cbn; auto end|].
      apply (sem_paren _ _ _ _ _ _ [e0] false t [v]). constructor; auto. constructor.
    - cbn. tauto.
    - rewrite fby_sem, (proj1 (then_two a (XPre b) t)), pre_iff, (proj1 (fby_one b (t - 1))). tauto.
    - rewrite fby_settled, (proj2 (then_two a (XPre b) t)), (proj2 (fby_one b (t - 1))). cbn [settled].
      assert (E : (exists v, sm (XPre b) t v) <-> exists v, sm b (t - 1) v) by (split; intros (v & V); exists v; apply pre_iff; auto). rewrite E. tauto.
    - rewrite !fby_sem, (proj1 (fby_one _ (t - 1))). tauto.
    - rewrite !fby_settled, (proj2 (fby_one _ (t - 1))). pose proof (fby_value b l (t - 1)). tauto.
    - rewrite pre_iff. split; intros H; inversion H; subst; constructor.
    - cbn. tauto.
    - rewrite pre_iff. split; intros H; inversion H; subst; constructor; apply pre_sems; auto.
    - change (st (XPre (XParen l b)) t) with (st (XParen l b) (t - 1)). rewrite !st_paren. apply pre_all.
    - rewrite pre_iff. split; intros H; inversion H; subst; econstructor; eauto; apply pre_iff; auto.
    - cbn. tauto.
    - rewrite pre_iff. split; intros H; inversion H; subst; econstructor; eauto; apply pre_iff; auto.
    - cbn. tauto.
    - rewrite pre_iff. split; intros H; inversion H; subst; econstructor; eauto; apply pre_iff; auto.
    - cbn. tauto.
    - rewrite pre_iff. split; intros H; inversion H; subst; econstructor; eauto; apply pre_iff; auto.
    - cbn. tauto.
    - rewrite pre_iff. split; intros H; inversion H; subst; (econstructor; [apply pre_iff; eauto|apply pre_bins; auto]).
    - change (st (XPre (XBin e0 l)) t) with (st (XBin e0 l) (t - 1)). rewrite !st_bin, <- pre_pairs. cbn. tauto.
    - rewrite pre_iff. split; intros H.
      + inversion H; subst; cbn; [apply sem_cmp1|eapply sem_cmp2; eauto]; apply pre_iff; auto.
      + destruct l as [|[op x] [|y l]]; cbn in H; inversion H; subst; [apply sem_cmp1|eapply sem_cmp2; eauto]; apply pre_iff; auto.
    - change (st (XPre (XCmp e0 l)) t) with (st (XCmp e0 l) (t - 1)). rewrite !st_cmp, <- pre_pairs. cbn. tauto.
    - rewrite pre_iff. split; intros H; inversion H; subst; (econstructor; [apply pre_iff; eauto|apply pre_clocks; auto]).
    - change (st (XPre (XClock e0 l)) t) with (st (XClock e0 l) (t - 1)). rewrite !st_clock, <- pre_pairs. cbn. tauto.
    - assert (G : forall a b, sm (XBin a [(op, b)]) t v -> sm (XBin b [(op, a)]) t v).
      { clear - H. intros a b X. inversion X; subst. match goal with H : bins _ _ _ _ _ _ _ [_] _ _ |- _ => inversion H; subst end.
        match goal with H : bins _ _ _ _ _ _ _ [] _ _ |- _ => inversion H; subst end.
        econstructor; eauto. econstructor; [eauto|apply val_comm; eauto|constructor]. }
      split; apply G.
    - cbn. tauto.
    - assert (G : forall op a b, sm (XCmp a [(op, b)]) t v -> sm (XCmp b [(mirror op, a)]) t v).
      { clear. intros op a b X. inversion X; subst. eapply sem_cmp2; eauto. apply val_cmp_swap. auto. }
      split; [apply G|]. intros X. apply G in X. destruct op; exact X.
    - cbn. tauto.
  Qed.
End Laws.

Theorem laws_hold : forall mode glob e e', law e e' -> refines mode glob e e' /\ refines mode glob e' e.
Proof.
  intros mode glob e e' H. split; intros L rho F N t; destruct (law_same mode glob L rho F N e e' H t) as [A B]; split; try (intros v; apply A); apply B.
Qed.

(** ** Programs. *)
Definition kept_decl (mode : ovf) (glob : ident -> option scalar) (a b : sattrdecl) : Prop :=
  a = b \/ exists sn sn', snd a = XNode sn /\ b = (fst a, XNode sn') /\ s_name sn' = s_name sn /\
    declared (s_outputs sn') = declared (s_outputs sn) /\ solutions_kept mode glob sn sn'.

Lemma kept_runs : forall mode glob p q l m, Forall2 (kept_decl mode glob) p q ->
  result (pipeline p) = Some l -> result (pipeline q) = Some m -> closed p -> default_mode p ->
  (forall x t, constant p x t -> glob x <> None) ->
  forall f ins outs, outputs mode glob (nodes_of l) f ins = Ok outs -> outputs mode glob (nodes_of m) f ins = Ok outs.
Proof.
  intros mode glob p q l m R Hp Hq C D K.
  assert (Back : forall b, In b q -> exists a, In a p /\ kept_decl mode glob a b)
    by (intros b J; destruct (forall2_in_right _ _ _ R _ J) as (a & I & X); eauto).
  apply (replaced mode glob p q l m Hp Hq C); auto.
  - intros a x i o J. destruct (Back _ J) as (c & I & [->|(sn & sn' & E1 & E2 & _)]); [eapply C; eauto|congruence].
  - intros a sn J. destruct (Back _ J) as ([c1 c2] & I & [E|(sn0 & sn' & E1 & E2 & _)]); [inversion E; subst; eapply D; eauto|].
    cbn in E1, E2. inversion E2; subst. eapply D; eauto.
  - intros x t [X|(a & [(e & J)|J])]; [eauto| |]; destruct (Back _ J) as (c & I & [->|(sn & sn' & E1 & E2 & _)]); try discriminate E2; apply (K x t); exists a; eauto.
  - intros a J. apply in_flat_map in J. destruct J as ([c1 c2] & J & X). destruct (forall2_in_left _ _ _ R _ J) as (c' & J' & S).
    destruct c2; cbn in X; try tauto. destruct X as [<-|[]]. destruct S as [<-|(sn & sn' & E1 & -> & E2 & E3 & Kp)].
    + exists nd. split; [apply in_flat_map; eexists; split; [exact J'|cbn; auto]|]. split; auto. split; auto. left. intros F N ins outs X. exact X.
    + cbn in E1. inversion E1; subst. exists sn'. split; [apply in_flat_map; eexists; split; [exact J'|cbn; auto]|]. auto.
Qed.

Lemma forall2_weaken : forall A B (P Q : A -> B -> Prop) l m, (forall a b, P a b -> Q a b) -> Forall2 P l m -> Forall2 Q l m.
Proof. induction 2; constructor; auto. Qed.

Theorem rewritten_runs : forall mode glob (R : sexpr -> sexpr -> Prop) p q l m,
  (forall e e', R e e' -> refines mode glob e e') -> Forall2 (rewritten_decl R) p q ->
  result (pipeline p) = Some l -> result (pipeline q) = Some m -> closed p -> default_mode p ->
  (forall x t, constant p x t -> glob x <> None) ->
  forall f ins outs, outputs mode glob (nodes_of l) f ins = Ok outs -> outputs mode glob (nodes_of m) f ins = Ok outs.
Proof.
  intros mode glob R p q l m HR H. apply (kept_runs mode glob p q l m). eapply forall2_weaken; [|exact H].
  intros a b [d|a0 f i o v s s' X]; [left; auto|]. right. eexists. eexists. cbn. split; [reflexivity|]. split; [reflexivity|]. cbn. split; auto. split; auto.
  eapply rewritten_kept; eauto.
Qed.

Lemma within_flip : forall R e e', within R e e' -> within (fun a b => R b a) e' e.
Proof.
  induction 1; [apply wi_here; auto|apply wi_paren; auto|apply wi_call; auto|apply wi_neg; auto|apply wi_not; auto|apply wi_pre; auto|apply wi_if1; auto|apply wi_if2; auto|apply wi_if3; auto|apply wi_merge1; auto|apply wi_merge2; auto|apply wi_merge3; auto|apply wi_bin1; auto|apply wi_bin2; auto|apply wi_cmp1; auto|apply wi_cmp2; auto|apply wi_clock1; auto|apply wi_clock2; auto|eapply wi_fby; eauto|eapply wi_then; eauto].
Qed.
Lemma many_flip : forall R e e', clos_refl_trans _ (within R) e e' -> clos_refl_trans _ (within (fun a b => R b a)) e' e.
Proof. induction 1; [apply rt_step, within_flip; auto|apply rt_refl|eapply rt_trans; eauto]. Qed.
Lemma forall2_flip : forall A B (P : A -> B -> Prop) l m, Forall2 P l m -> Forall2 (fun b a => P a b) m l.
Proof. induction 1; constructor; auto. Qed.
Lemma rewritten_flip : forall R p q, Forall2 (rewritten_decl R) p q -> Forall2 (rewritten_decl (fun a b => R b a)) q p.
Proof.
  intros R p q H. apply forall2_flip in H. eapply forall2_weaken; [|exact H]. intros a b X. destruct X as [d|a0 f i o v s s' X]; constructor.
  apply forall2_flip in X. eapply forall2_weaken; [|exact X]. intros x y Y. destruct Y; constructor; apply many_flip; auto.
Qed.

Lemma same_interface : forall (R : sattrdecl -> sattrdecl -> Prop) p q, Forall2 R p q ->
  (forall a b, R a b -> a = b \/ exists sn sn', snd a = XNode sn /\ b = (fst a, XNode sn')) -> closed p -> default_mode p ->
  closed q /\ default_mode q /\ forall x t, constant q x t -> constant p x t.
Proof.
  intros R p q H RR C D.
  assert (Back : forall b, In b q -> exists a, In a p /\ (a = b \/ exists sn sn', snd a = XNode sn /\ b = (fst a, XNode sn')))
    by (intros b J; destruct (forall2_in_right _ _ _ H _ J) as (a & I & X); eauto).
  split; [|split].
  - intros a x i o J. destruct (Back _ J) as (c & I & [->|(sn & sn' & E1 & E2)]); [eapply C; eauto|congruence].
  - intros a sn J. destruct (Back _ J) as ([c1 c2] & I & [E|(sn0 & sn' & E1 & E2)]); [inversion E; subst; eapply D; eauto|].
    cbn in E1, E2. inversion E2; subst. eapply D; eauto.
  - intros x t (a & [(e & J)|J]); destruct (Back _ J) as (c & I & [->|(sn & sn' & E1 & E2)]); try discriminate E2; exists a; eauto.
Qed.

Theorem laws_run : forall mode glob p q l m,
  Forall2 (rewritten_decl (fun a b => law a b \/ law b a)) p q ->
  result (pipeline p) = Some l -> result (pipeline q) = Some m -> closed p -> default_mode p ->
  (forall x t, constant p x t -> glob x <> None) ->
  forall f ins outs, outputs mode glob (nodes_of l) f ins = Ok outs <-> outputs mode glob (nodes_of m) f ins = Ok outs.
Proof.
  intros mode glob p q l m H Hp Hq C D K f ins outs.
  assert (S : closed q /\ default_mode q /\ forall x t, constant q x t -> constant p x t).
  { eapply (same_interface _ p q H); auto. intros a b [d|a0 f0 i o v s s' X]; [left; auto|right; eexists; eexists; cbn; split; reflexivity]. }
  destruct S as (C' & D' & K'). split.
  - apply (rewritten_runs mode glob (fun a b => law a b \/ law b a) p q l m); auto. intros e e' [X|X]; apply (laws_hold mode glob _ _ X).
  - apply (rewritten_runs mode glob (fun b a => law a b \/ law b a) q p m l); auto.
    + intros e e' [X|X]; apply (laws_hold mode glob _ _ X).
    + apply rewritten_flip. exact H.
    + intros x t X. eauto.
Qed.

(** ** Definitions of several variables. *)
Section Split.
  Variable mode : ovf.
  Variable glob : ident -> option scalar.
  Variable L : list ident.
  Variable rho : nat -> ident -> option nillable.
  Variable F : ident -> list val -> val -> Prop.
  Variable N : ident -> val -> Prop.
  Variable T : nat.
  Notation holds := (fun i => sstmt_holds mode glob L rho F N T i /\ stmt_settled mode glob L rho F N T i).

  Lemma sems_forall : forall es t vs, sems mode glob L rho F N es t vs <-> Forall2 (fun e v => sem mode glob L rho F N e t v) es vs.
  Proof.
    induction es as [|e es IH]; intros t vs; split; intros H; inversion H; subst; constructor; auto; apply IH; auto.
  Qed.
  Lemma tuple_sem : forall es b t v, 2 <= length es -> sem mode glob L rho F N (XParen es b) t v <-> exists vs, v = VT vs /\ sems mode glob L rho F N es t vs.
  Proof.
    intros es b t v Le. assert (G : forall vs, sems mode glob L rho F N es t vs -> tuple_val vs = VT vs).
    { intros vs H. apply sems_forall in H. assert (X : length es = length vs) by (clear - H; induction H; cbn; auto). destruct vs as [|x [|y vs]]; cbn in *; try lia. auto. }
    split.
    - intros H. inversion H; subst. eauto.
    - intros (vs & -> & H). rewrite <- (G vs H). constructor. auto.
  Qed.

  Lemma split_holds : forall ts es b b', length ts = length es -> 2 <= length ts ->
    (holds (XDef (TTuple ts b) (XParen es b')) <-> forall i, In i (map (fun p => XDef (fst p) (snd p)) (combine ts es)) -> holds i).
  Proof.
    intros ts es b b' Le Two. cbn [sstmt_holds stmt_settled]. rewrite st_paren.
    assert (A : (exists v, sem mode glob L rho F N (XParen es b') (Z.of_nat T) v /\ smatches (rho T) (TTuple ts b) v) <->
                exists vs, Forall2 (fun e v => sem mode glob L rho F N e (Z.of_nat T) v) es vs /\ Forall2 (smatches (rho T)) ts vs).
    { split.
      - intros (v & H & M). apply tuple_sem in H; [|lia]. destruct H as (vs & -> & H). exists vs. split; [apply sems_forall; auto|].
        inversion M; subst; cbn in Two; try lia. auto.
      - intros (vs & H & M). exists (VT vs). split; [apply tuple_sem; [lia|]; exists vs; split; auto; apply sems_forall; auto|]. constructor; auto. }
    rewrite A. clear A Two. revert es Le. induction ts as [|t ts IH]; intros [|e es] Le; cbn in Le; try lia; cbn [combine map In all_settled].
    - split; [intros _ i []|]. intros _. split; [exists []; split; constructor|exact Logic.I].
    - specialize (IH es ltac:(lia)). split.
      + intros [(vs & H & M) [S1 S2]]. inversion H; subst. inversion M; subst. intros i [<-|J]; [cbn; split; eauto|].
        apply IH; auto. split; auto. exists l'. auto.
      + intros H. destruct (H (XDef t e) (or_introl eq_refl)) as [(v & H1 & H2) H3].
        destruct (proj2 IH (fun i J => H i (or_intror J))) as [(vs & H4 & H5) H6]. split; [exists (v :: vs); split; constructor; auto|]. split; auto.
  Qed.

  Lemma split_all : forall l l', split_stmts l l' -> ((forall i, In i l -> holds i) <-> forall i, In i l' -> holds i).
  Proof.
    induction 1 as [|i l l' H IH|ts es b b' l l' Le Two H IH]; [tauto| |].
    - destruct IH as [I1 I2]. split; intros A j [<-|J].
      + apply A. left. auto.
      + revert j J. apply I1. intros k K. apply A. right. auto.
      + apply A. left. auto.
      + revert j J. apply I2. intros k K. apply A. right. auto.
    - destruct IH as [I1 I2]. split.
      + intros A j J. apply in_app_iff in J. destruct J as [J|J].
        * revert j J. apply (split_holds ts es b b'); auto. apply A. left. auto.
        * revert j J. apply I1. intros k K. apply A. right. auto.
      + intros A j [<-|J].
        * apply split_holds; auto. intros i I. apply A, in_app_iff. auto.
        * revert j J. apply I2. intros k K. apply A, in_app_iff. auto.
  Qed.
End Split.

Lemma split_kept : forall mode glob f i o v l l', split_stmts l l' ->
  solutions_kept mode glob (mkSNode f i o v l) (mkSNode f i o v l') /\ solutions_kept mode glob (mkSNode f i o v l') (mkSNode f i o v l).
Proof.
  intros mode glob f i o v l l' H. split; intros F N ins outs (Len & rho & M); (split; [auto|]; exists rho; intros T vv oo Hv Ho;
    destruct (M T vv oo Hv Ho) as (A & B & C); split; [exact A|]; split; [|exact C]); revert B; apply (split_all mode glob _ rho F N T _ _ H).
Qed.

Theorem split_runs : forall mode glob p q l m, Forall2 split_decl p q ->
  result (pipeline p) = Some l -> result (pipeline q) = Some m -> closed p -> default_mode p ->
  (forall x t, constant p x t -> glob x <> None) ->
  forall f ins outs, outputs mode glob (nodes_of l) f ins = Ok outs <-> outputs mode glob (nodes_of m) f ins = Ok outs.
Proof.
  intros mode glob p q l m H Hp Hq C D K f ins outs.
  assert (S : closed q /\ default_mode q /\ forall x t, constant q x t -> constant p x t).
  { eapply (same_interface _ p q H); auto. intros a b [d|a0 f0 i o v s s' X]; [left; auto|right; eexists; eexists; cbn; split; reflexivity]. }
  destruct S as (C' & D' & K'). split.
  - apply (kept_runs mode glob p q l m); auto. eapply forall2_weaken; [|exact H]. intros a b [d|a0 f0 i o v s s' X]; [left; auto|].
    right. eexists. eexists. cbn. split; [reflexivity|]. split; [reflexivity|]. cbn. split; auto. split; auto. apply (split_kept mode glob f0 i o v s s' X).
  - apply (kept_runs mode glob q p m l); auto; [|intros x t X; eauto]. apply forall2_flip in H. eapply forall2_weaken; [|exact H].
    intros b a X. destruct X as [d|a0 f0 i o v s s' X]; [left; auto|].
    right. eexists. eexists. cbn. split; [reflexivity|]. split; [reflexivity|]. cbn. split; auto. split; auto. apply (split_kept mode glob f0 i o v s s' X).
Qed.
