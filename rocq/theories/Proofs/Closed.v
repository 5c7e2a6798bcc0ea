(** What the operators preserve, runs preserve. *)
From Coq Require Import String List ZArith Bool Arith Lia Permutation.
From Verif Require Import Model.Base Model.Scalar Model.Value Model.Ast Model.Errors Model.Options Model.Interp Model.Surface Model.Translate
  Model.Causality Model.Pipeline Spec.StepSpec Spec.SurfaceSem Spec.ProgramSem Spec.SourceCausal Spec.ClockSpec Spec.UniversalSem Spec.RangeSpec
  Proofs.AstInd Proofs.OutBasics Proofs.CoreProofs Proofs.TranslateSem Proofs.TranslateStruct Proofs.NodeWf Proofs.RuntimeProofs Proofs.RuntimeProofs2
  Proofs.PipelineProofs Proofs.ProgramProofs Proofs.Unique Proofs.UniProgram Proofs.SourceOrder Proofs.Prompt.
Import ListNotations.

Section Closed.
Variable mode : ovf.
Variable Pr : scalar -> Prop.
Hypothesis HP : closed_under mode Pr.
Notation good := (every Pr).

(** ** Values *)
Lemma range_tuple : forall l, good (VT l) <-> Forall good l.
Proof.
  intros l. cbn [every]. induction l as [|v l IH]; cbn; [split; auto|]. rewrite IH. split.
  - intros [A B]. constructor; auto.
  - intros H. inversion H; auto.
Qed.
Lemma range_tuples : forall l, Forall good l -> good (tuple_val l).
Proof. intros [|v [|w l]] H; [exact (cu_unit _ _ HP)|inversion H; auto|apply range_tuple; auto]. Qed.
Lemma range_all_nil : forall v, good (all_nil v).
Proof.
  induction v using val_ind'; cbn [all_nil]; [exact I|]. apply range_tuple. apply Forall_forall. intros v I.
  apply in_map_iff in I. destruct I as (w & <- & I). rewrite Forall_forall in H. auto.
Qed.

  Lemma range_un : forall op a v, good a -> val_un mode op a = Ok v -> good v.
  Proof.
    intros op [[s|]|] v A E; try discriminate; cbn in E; [|inversion E; exact I].
    destruct (scalar_un mode op s) eqn:U; [|discriminate]. inversion E; subst. cbn in *. exact (cu_un _ _ HP _ _ _ A U).
  Qed.
  Lemma range_bin : forall op a b v, good a -> good b -> val_bin mode op a b = Ok v -> good v.
  Proof.
    intros op [[s|]|] [[s'|]|] v A B E; try discriminate; cbn in E; try (inversion E; exact I).
    destruct (scalar_bin mode op s s') eqn:U; [|discriminate]. inversion E; subst. cbn in *. exact (cu_bin _ _ HP _ _ _ _ A B U).
  Qed.
  Lemma range_cmp : forall op a b v, val_cmp op a b = Ok v -> good v.
  Proof.
    intros op [n|] [m|] v E; try discriminate. unfold val_cmp in E. cbn [as_scalar bind] in E.
    destruct (do_cmp op n m) as [r|] eqn:D; [|discriminate]. inversion E; subst.
    assert (K : r = Nil \/ exists b, r = Defined (SBool b)); [|destruct K as [->|(b & ->)]; [exact I|apply (cu_bool _ _ HP)]].
    destruct op; cbn in D; unfold cmp_ord, cmp_eq in D;
      match type of D with bind ?x _ = _ => destruct x as [[[]|]|] end; cbn in D; inversion D; eauto.
  Qed.
  Lemma range_ifx : forall c a b v, good a -> good b -> val_ifx c a b = Ok v -> good v.
  Proof.
    intros [[[z|fl|x|]|]|] a b v A B E; try discriminate; cbn in E; inversion E; subst.
    - match goal with |- good (if ?x then _ else _) => destruct x end; auto.
    - apply range_all_nil.
  Qed.
  Lemma range_merge : forall c a b v, good a -> good b -> val_merge c a b = Ok v -> good v.
  Proof.
    intros [[[z|fl|x|]|]|] a b v A B E; try discriminate; cbn in E; inversion E; subst.
    - match goal with |- good (if ?x then _ else _) => destruct x end; auto.
    - apply range_all_nil.
  Qed.
  Lemma range_when : forall pos c a v, good a -> val_when pos c a = Ok v -> good v.
  Proof.
    intros pos [[[z|fl|x|]|]|] a v A E; try discriminate; cbn in E; inversion E; subst.
    - match goal with |- good (if ?x then _ else _) => destruct x end; auto using range_all_nil.
    - apply range_all_nil.
  Qed.

Definition lits_ok (e : sexpr) : Prop := forall z, In z (literal_values e) -> Pr z.
Definition within (rho : nat -> ident -> option nillable) (T : nat) (x : ident) : Prop := forall n, rho T x = Some n -> good (VS n).
Ltac lits := match goal with L : lits_ok _ |- _ => intros ? J; apply L; cbn [literal_values flat_map snd] in *; rewrite ?in_app_iff in *; tauto end.

(** ** Expressions, default mode *)
Section Default.
  Variable glob : ident -> option scalar.
  Variable locals : list ident.
  Variable rho : nat -> ident -> option nillable.
  Variable F : ident -> list val -> val -> Prop.
  Variable N : ident -> val -> Prop.
  Hypothesis Hglob : forall x s, glob x = Some s -> Pr s.
  Hypothesis HF : forall f args v, F f args v -> Forall good args -> good v.
  Hypothesis HN : forall f v, N f v -> good v.
  Notation sm := (sem mode glob locals rho F N).

  Definition past (t : Z) : Prop := forall T' x, (Z.of_nat T' < t)%Z -> In x locals -> within rho T' x.
  Definition present (t : Z) (l : list ident) : Prop := forall x, In x l -> In x locals -> within rho (Z.to_nat t) x.
  Definition dr (e : sexpr) : Prop := forall t v, lits_ok e -> past t -> ((0 <= t)%Z -> present t (now e)) -> sm e t v -> good v.

  Lemma past_le : forall t t', past t -> (t' <= t)%Z -> past t'.
  Proof. intros t t' P L T x K. apply P. lia. Qed.
  Lemma past_present : forall t t' l, past t -> (t' < t)%Z -> (0 <= t')%Z -> present t' l.
  Proof. intros t t' l P L K x _ I. apply P; auto. lia. Qed.

  Lemma dr_list : forall l, Forall dr l -> forall t vs, (forall z, In z (flat_map literal_values l) -> Pr z) -> past t ->
    ((0 <= t)%Z -> present t (flat_map now l)) -> sems mode glob locals rho F N l t vs -> Forall good vs.
  Proof.
    induction 1 as [|e l H _ IH]; intros t vs L P Q S; inversion S; subst; constructor.
    - eapply H; eauto; [intros z I; apply L; cbn; rewrite in_app_iff; auto|intros K x I; apply Q; auto; cbn; rewrite in_app_iff; auto].
    - eapply IH; eauto; [intros z I; apply L; cbn; rewrite in_app_iff; auto|intros K x I; apply Q; auto; cbn; rewrite in_app_iff; auto].
  Qed.
  Lemma dr_paren : forall l b, Forall dr l -> dr (XParen l b).
  Proof. intros l b H t v L P Q S. inversion S; subst. apply range_tuples. eapply dr_list; eauto. Qed.
  Lemma dr_bins : forall l, Forall (fun p => dr (snd p)) l -> forall t w v, good w ->
    (forall z, In z (flat_map (fun p => literal_values (snd p)) l) -> Pr z) -> past t ->
    ((0 <= t)%Z -> present t (flat_map (fun p => now (snd p)) l)) -> bins mode glob locals rho F N w l t v -> good v.
  Proof.
    induction 1 as [|[op e] l H _ IH]; intros t w v W L P Q S; inversion S; subst; auto.
    match goal with X : sm e t ?b, Y : val_bin _ _ _ ?b = Ok ?c |- _ =>
      assert (A : good b) by (apply (H t b); auto; [intros z I; apply L; cbn; rewrite in_app_iff; auto|intros K x I; apply Q; auto; cbn; rewrite in_app_iff; auto]);
      apply (IH t c v); auto; [exact (range_bin _ _ _ _ W A Y)|intros z I; apply L; cbn; rewrite in_app_iff; auto|intros K x I; apply Q; auto; cbn; rewrite in_app_iff; auto]
    end.
  Qed.
  Lemma dr_clocks : forall l t w v, good w -> clocks mode glob locals rho F N w l t v -> good v.
  Proof.
    induction l as [|[op e] l IH]; intros t w v W S; inversion S; subst; auto. eapply IH; [|eauto]. eapply range_when; eauto.
  Qed.

  Lemma default_range : forall e, dr e.
  Proof.
    intros e. induction e using sexpr_ind'; intros t v L P Q S; cbn [now] in Q.
    - inversion S; subst; apply L; cbn; auto.
    - inversion S; subst; [|exact I|cbn; eauto]. eapply Q; eauto. left; auto.
    - eapply dr_paren; eauto.
    - inversion S; subst; [eauto|]. eapply HF; [eassumption|]. apply Forall_forall. intros w I. apply In_nth_error in I. destruct I as (k & E).
      assert (Lk : k < length args) by (apply nth_error_Some; congruence).
      match goal with X : forall k w, nth_error args k = Some w -> _ |- _ => specialize (X _ _ E) end.
      eapply (dr_paren l b H (Z.of_nat k)); [exact L|eapply past_le; eauto; lia| |eassumption]. intros _ x I J.
      rewrite Nat2Z.id. destruct (Z.eq_dec (Z.of_nat k) t) as [Ek|Nk].
      + specialize (Q ltac:(assumption) x I J). rewrite <- Ek, Nat2Z.id in Q. auto.
      + apply P; auto. lia.
    - inversion S; subst. eapply range_un; [eapply IHe; eauto|eauto].
    - inversion S; subst. eapply range_un; [eapply IHe; eauto|eauto].
    - apply sem_pre_iff in S. apply (IHe (t - 1)%Z v); auto; [apply (past_le t); auto; lia|]. intros K. apply (past_present t); auto. lia.
    - inversion S; subst. eapply range_ifx; [| |eassumption]; [eapply IHe2|eapply IHe3]; eauto; try lits; intros K x I; apply Q; auto; rewrite !in_app_iff; auto.
    - inversion S; subst. eapply range_merge; [| |eassumption]; [eapply IHe2|eapply IHe3]; eauto; try lits; intros K x I; apply Q; auto; rewrite !in_app_iff; auto.
    - inversion S; subst. eapply dr_bins; [exact H| | | | |eassumption]; auto.
      + eapply IHe; eauto; try lits. intros K x I; apply Q; auto; rewrite !in_app_iff; auto.
      + lits.
      + intros K x I; apply Q; auto; rewrite !in_app_iff; auto.
    - inversion S; subst; [|eapply range_cmp; eauto]. eapply IHe; eauto; try lits. intros K x I; apply Q; auto; rewrite !in_app_iff; auto.
    - inversion S; subst. eapply dr_clocks; [|eassumption]. eapply IHe; eauto; try lits. intros K x I; apply Q; auto; rewrite !in_app_iff; auto.
    - apply sem_fby_iff in S. destruct S as (e' & E & S). set (i := position (length l) t) in *.
      assert (Li : (i = 0 -> e' = e) /\ (i <> 0 -> In e' l)) by (destruct i; cbn in E; split; try congruence; intros _; eapply nth_error_In; eauto).
      destruct (Nat.eq_dec i 0) as [Z|Z].
      + assert (e' = e) by (apply Li; auto). subst e'. rewrite Z in S. replace (t - Z.of_nat 0)%Z with t in S by lia. eapply IHe; eauto. lits.
      + assert (In e' l) by (apply Li; auto). rewrite Forall_forall in H.
        apply (H e' ltac:(auto) (t - Z.of_nat i)%Z v); auto.
        * intros z I. apply L. cbn [literal_values]. apply in_app_iff. right. apply in_flat_map. eauto.
        * apply (past_le t); auto. lia.
        * intros K. apply (past_present t); auto. lia.
    - apply sem_then_iff in S. destruct S as (e' & E & S).
      assert (Ie : In e' (e :: l)) by (eapply nth_error_In; eauto).
      assert (D : dr e') by (destruct Ie as [<-|Ie]; auto; rewrite Forall_forall in H; auto).
      eapply D; eauto.
      + intros z I. apply L. cbn [literal_values]. apply in_app_iff. destruct Ie as [<-|Ie]; auto. right. apply in_flat_map. eauto.
      + intros K x I. apply Q; auto. apply in_app_iff. destruct Ie as [<-|Ie]; auto. right. apply in_flat_map. eauto.
  Qed.
End Default.

(** ** Expressions, with registers *)
Section Universal.
  Variable glob : ident -> option scalar.
  Variable locals : list ident.
  Variable env : ident -> option pace.
  Variable rho : nat -> ident -> option nillable.
  Variable F : ident -> list val -> val -> Prop.
  Hypothesis Hglob : forall x s, glob x = Some s -> Pr s.
  Hypothesis HF : forall f args v, F f args v -> Forall good args -> good v.
  Notation us := (usem mode glob locals env rho F).

  Definition ur (e : sexpr) : Prop := forall T v, lits_ok e -> (forall T' x, T' < T -> In x locals -> within rho T' x) ->
    (forall x, In x (now e) -> In x locals -> within rho T x) -> us e T v -> good v.

  Lemma ur_past : forall e T v, ur e -> lits_ok e -> (forall T' x, T' < T -> In x locals -> within rho T' x) ->
    last_present (us e) T v -> good v.
  Proof. intros e T v H L P (k & Lk & U & _). apply (H k v); auto; intros; apply P; auto; lia. Qed.

  Lemma ur_list : forall l, Forall ur l -> forall T vs, (forall z, In z (flat_map literal_values l) -> Pr z) ->
    (forall T' x, T' < T -> In x locals -> within rho T' x) ->
    (forall x, In x (flat_map now l) -> In x locals -> within rho T x) -> usems mode glob locals env rho F l T vs -> Forall good vs.
  Proof.
    induction 1 as [|e l H _ IH]; intros T vs L P Q S; inversion S; subst; constructor.
    - eapply H; eauto; [intros z I; apply L; cbn; rewrite in_app_iff; auto|intros x I; apply Q; auto; cbn; rewrite in_app_iff; auto].
    - eapply IH; eauto; [intros z I; apply L; cbn; rewrite in_app_iff; auto|intros x I; apply Q; auto; cbn; rewrite in_app_iff; auto].
  Qed.
  Lemma ur_paren : forall l b, Forall ur l -> ur (XParen l b).
  Proof. intros l b H T v L P Q S. inversion S; subst. apply range_tuples. eapply ur_list; eauto. Qed.
  Lemma ur_bins : forall l, Forall (fun p => ur (snd p)) l -> forall T w v, good w ->
    (forall z, In z (flat_map (fun p => literal_values (snd p)) l) -> Pr z) ->
    (forall T' x, T' < T -> In x locals -> within rho T' x) ->
    (forall x, In x (flat_map (fun p => now (snd p)) l) -> In x locals -> within rho T x) -> ubins mode glob locals env rho F w l T v -> good v.
  Proof.
    induction 1 as [|[op e] l H _ IH]; intros T w v W L P Q S; inversion S; subst; auto.
    match goal with X : us e T ?b, Y : val_bin _ _ _ ?b = Ok ?c |- _ =>
      assert (A : good b) by (apply (H T b); auto; [intros z I; apply L; cbn; rewrite in_app_iff; auto|intros x I; apply Q; auto; cbn; rewrite in_app_iff; auto]);
      apply (IH T c v); auto; [exact (range_bin _ _ _ _ W A Y)|intros z I; apply L; cbn; rewrite in_app_iff; auto|intros x I; apply Q; auto; cbn; rewrite in_app_iff; auto]
    end.
  Qed.
  Lemma ur_clocks : forall l T w v, good w -> uclocks mode glob locals env rho F w l T v -> good v.
  Proof.
    induction l as [|[op e] l IH]; intros T w v W S; inversion S; subst; auto. eapply IH; [|eauto]. eapply range_when; eauto.
  Qed.
  Lemma ur_fby : forall l e, ur e -> Forall ur l -> ur (XFby e l).
  Proof.
    induction l as [|a l IH]; intros e He Hl T v L P Q S; cbn [now] in Q; inversion S; subst.
    - eapply He; eauto. lits.
    - apply range_all_nil.
    - eapply He; eauto. lits.
    - inversion Hl; subst. apply (ur_past (XFby a l) T v); auto. lits.
  Qed.
  Lemma ur_then : forall l e, ur e -> Forall ur l -> ur (XThen e l).
  Proof.
    induction l as [|a l IH]; intros e He Hl T v L P Q S; cbn [now] in Q; inversion S; subst.
    - eapply He; eauto; [lits|]. intros; apply Q; auto; rewrite in_app_iff; auto.
    - apply range_all_nil.
    - eapply He; eauto; [lits|]. intros; apply Q; auto; rewrite in_app_iff; auto.
    - inversion Hl; subst. eapply (IH a); eauto; [lits|]. intros x I J. apply Q; auto. cbn [now] in I. cbn [flat_map]. rewrite !in_app_iff in *. tauto.
  Qed.

  Lemma universal_range : forall e, ur e.
  Proof.
    intros e. induction e using sexpr_ind'; try (apply ur_fby; auto; fail); try (apply ur_then; auto; fail); intros T v L P Q S; cbn [now] in Q.
    - inversion S; subst; apply L; cbn; auto.
    - inversion S; subst; [|cbn; eauto]. eapply Q; eauto. left; auto.
    - eapply ur_paren; eauto.
    - inversion S; subst. eapply HF; [eassumption|]. apply Forall_forall. intros w I. apply In_nth_error in I. destruct I as (k & E).
      assert (Lk : k < length args) by (apply nth_error_Some; congruence).
      match goal with X : forall k w, nth_error args k = Some w -> _ |- _ => specialize (X _ _ E) end.
      eapply (ur_paren l b H k); [exact L| | |eassumption].
      + intros; apply P; auto; lia.
      + intros x I J. destruct (Nat.eq_dec k T) as [->|Nk]; [apply Q; auto|apply P; auto; lia].
    - inversion S; subst. eapply range_un; [eapply IHe; eauto|eauto].
    - inversion S; subst. eapply range_un; [eapply IHe; eauto|eauto].
    - inversion S; subst; try apply range_all_nil. eapply (ur_past e); eauto.
    - inversion S; subst. eapply range_ifx; [| |eassumption]; [eapply IHe2|eapply IHe3]; eauto; try lits; intros x I; apply Q; auto; rewrite !in_app_iff; auto.
    - inversion S; subst. eapply range_merge; [| |eassumption]; [eapply IHe2|eapply IHe3]; eauto; try lits; intros x I; apply Q; auto; rewrite !in_app_iff; auto.
    - inversion S; subst. eapply ur_bins; [exact H| | | | |eassumption]; auto.
      + eapply IHe; eauto; try lits. intros x I; apply Q; auto; rewrite !in_app_iff; auto.
      + lits.
      + intros x I; apply Q; auto; rewrite !in_app_iff; auto.
    - inversion S; subst; [|eapply range_cmp; eauto]. eapply IHe; eauto; try lits. intros x I; apply Q; auto; rewrite !in_app_iff; auto.
    - inversion S; subst. eapply ur_clocks; [|eassumption]. eapply IHe; eauto; try lits. intros x I; apply Q; auto; rewrite !in_app_iff; auto.
  Qed.
End Universal.

(** ** Nodes and programs *)
Lemma match_range : forall env t v, smatches env t v -> good v -> forall x n, In x (binds t) -> env x = Some n -> good (VS n).
Proof.
  intros env t. induction t using starget_ind'; intros v M Fv y n I E.
  - destruct I as [<-|[]]. inversion M; subst. assert (n0 = n) by congruence. subst. auto.
  - destruct (binds_part _ _ _ I) as (u & Iu & Iy). rewrite Forall_forall in H. inversion M; subst; [destruct Iu| |].
    + destruct Iu as [<-|[]]. eapply H; eauto. left; auto.
    + assert (Ex : exists w, In w vs /\ smatches env u w).
      { match goal with X : Forall2 _ l vs |- _ => clear - X Iu; induction X as [|a b l vs Ab X IH] end; [destruct Iu|].
        destruct Iu as [->|Iu]; [exists b; split; [left|]; auto|]. destruct (IH Iu) as (w & I1 & I2). exists w. split; auto. right. auto. }
      destruct Ex as (w & Iw & Mw). apply range_tuple in Fv. rewrite Forall_forall in Fv. eapply H; eauto.
Qed.

Lemma row_range : forall env l v, row env l v -> good v -> forall x n, In x l -> env x = Some n -> good (VS n).
Proof.
  intros env l v (ns & F & ->) R x n I E.
  assert (G : Forall good (map VS ns)).
  { destruct (map VS ns) as [|a [|b r]] eqn:Q; [constructor|constructor; auto|apply range_tuple in R; exact R]. }
  clear R. revert x n I E. induction F as [|y m l ns Y F IH]; intros x n I E; [destruct I|]. inversion G; subst.
  destruct I as [->|I]; [congruence|eapply IH; eauto].
Qed.
Lemma range_row : forall env l v, row env l v -> (forall x n, In x l -> env x = Some n -> good (VS n)) -> good v.
Proof.
  intros env l v (ns & F & ->) R. apply range_tuples. induction F as [|y m l ns Y F IH]; constructor.
  - eapply R; eauto. left; auto.
  - apply IH. intros x n I. apply R. right; auto.
Qed.
Lemma absent_range : forall l, good (absent_row l).
Proof. intros [|a [|b l]]; try exact I. apply range_tuple. apply Forall_forall. intros v H. apply in_map_iff in H. destruct H as (? & <- & _). exact I. Qed.
Lemma weave_range : forall w ins outs, good w -> Forall good outs -> Forall good (weave w ins outs).
Proof.
  intros w ins. induction ins as [|v ins IH]; intros outs W H; cbn [weave]; [constructor|].
  destruct (first_is_nil v); [constructor; auto|]. destruct H; constructor; auto.
Qed.

Section Node.
  Variable sn : snode.
  Variable rho : nat -> ident -> option nillable.
  Hypothesis Hl : forall i, In i (s_defs sn) -> lits_ok match i with XDef _ e | XAssert e => e end.
  Hypothesis Ho : exists rank : ident -> nat,
    (forall t e, In (XDef t e) (s_defs sn) -> forall x y, In x (now e) -> In x (node_vars sn) -> ~ In x (declared (s_inputs sn)) ->
       In y (binds t) -> rank x < rank y) /\
    (forall x, In x (node_vars sn) -> ~ In x (declared (s_inputs sn)) -> exists t e, In (XDef t e) (s_defs sn) /\ In x (binds t)).
  Variable M : sexpr -> nat -> val -> Prop.
  Hypothesis HM : forall e T v, lits_ok e -> (forall T' x, T' < T -> In x (node_vars sn) -> within rho T' x) ->
    (forall x, In x (now e) -> In x (node_vars sn) -> within rho T x) -> M e T v -> good v.
  Variable k : nat.
  Hypothesis Hd : forall T, T < k -> forall i, In i (s_defs sn) -> mholds rho M T i.
  Hypothesis Hi : forall T, T < k -> forall x, In x (declared (s_inputs sn)) -> within rho T x.

  Lemma streams_range : forall T, T < k -> forall x, In x (node_vars sn) -> within rho T x.
  Proof.
    destruct Ho as (rank & Hr & Hx). intros T. induction T as [T IHT] using lt_wf_ind. intros L.
    assert (G : forall m x, rank x < m -> In x (node_vars sn) -> within rho T x).
    { induction m as [|m IHm]; intros x Lx Ix; [lia|].
      destruct (in_dec string_dec x (declared (s_inputs sn))) as [Ii|Ni]; [apply Hi; auto|].
      destruct (Hx x Ix Ni) as (t & e & Id & It). destruct (Hd T L _ Id) as (v & Me & Mt).
      intros n E. eapply match_range; eauto. eapply (HM e T v); auto; [apply (Hl _ Id)|intros T' y L' Iy; apply IHT; auto; lia|].
      intros y Iy Vy. destruct (in_dec string_dec y (declared (s_inputs sn))) as [Ii|Ny]; [apply Hi; auto|].
      apply IHm; auto. specialize (Hr _ _ Id y x Iy Vy Ny It). lia. }
    intros x Ix. eapply (G (S (rank x))); auto.
  Qed.
End Node.

Section Program.
  Variable glob : ident -> option scalar.
  Hypothesis Hglob : forall x s, glob x = Some s -> Pr s.

  Lemma node_range : forall o sn nd (F : ident -> list val -> val -> Prop) (N : ident -> val -> Prop), compiled_node o sn nd ->
    (forall i, In i (s_defs sn) -> lits_ok match i with XDef _ e | XAssert e => e end) ->
    (forall f args v, F f args v -> Forall good args -> good v) -> (forall f v, N f v -> good v) ->
    forall (u : bool) ins outs, Forall good ins ->
    (if u then unode_meaning mode glob F sn ins outs else node_meaning mode glob F N sn ins outs) -> Forall good outs.
  Proof.
    intros o sn nd F N C Hl HF HN u ins outs Fi Hm. destruct (compiled_passed _ _ _ C) as (nd0 & stmts & Pa).
    pose proof (source_order _ _ _ _ _ Pa) as Ord.
    assert (G : forall rho (M : sexpr -> nat -> val -> Prop),
      (forall e T v, lits_ok e -> (forall T' x, T' < T -> In x (node_vars sn) -> within rho T' x) ->
        (forall x, In x (now e) -> In x (node_vars sn) -> within rho T x) -> M e T v -> good v) ->
      length outs = length ins ->
      (forall T v o, nth_error ins T = Some v -> nth_error outs T = Some o ->
         (declared (s_inputs sn) = [] \/ row (rho T) (declared (s_inputs sn)) v) /\
         (forall i, In i (s_defs sn) -> mholds rho M T i) /\ row (rho T) (declared (s_outputs sn)) o) ->
      Forall good outs).
    { intros rho M HM L H.
      assert (At : forall T, T < length ins -> exists v w, nth_error ins T = Some v /\ nth_error outs T = Some w).
      { intros T K. assert (A : nth_error ins T <> None) by (apply nth_error_Some; auto).
        assert (B : nth_error outs T <> None) by (apply nth_error_Some; lia).
        destruct (nth_error ins T), (nth_error outs T); try congruence. eauto. }
      assert (W : forall T, T < length ins -> forall x, In x (node_vars sn) -> within rho T x).
      { apply (streams_range sn rho Hl Ord M HM).
        - intros T K. destruct (At T K) as (v & w & E1 & E2). apply (H _ _ _ E1 E2).
        - intros T K x I n En. destruct (At T K) as (v & w & E1 & E2). destruct (H _ _ _ E1 E2) as ([A|A] & _); [rewrite A in I; destruct I|].
          eapply row_range; [exact A| |exact I|exact En]. rewrite Forall_forall in Fi. apply Fi. eapply nth_error_In; eauto. }
      apply Forall_forall. intros w I. apply In_nth_error in I. destruct I as (T & Ew).
      assert (K : T < length ins) by (rewrite <- L; apply nth_error_Some; congruence).
      destruct (At T K) as (v & w' & E1 & E2). assert (w' = w) by congruence. subst w'. destruct (H _ _ _ E1 E2) as (_ & _ & R).
      eapply range_row; [exact R|]. intros x n I En. eapply (W T K x); eauto. unfold node_vars. rewrite !in_app_iff. auto. }
    destruct u; destruct Hm as (L & rho & H).
    - apply (G rho (usem mode glob (node_vars sn) (declared_pace sn) rho F)); auto.
      intros e T v. apply universal_range; auto.
    - apply (G rho (fun e T => sem mode glob (node_vars sn) rho F N e (Z.of_nat T))); auto.
      intros e T v L' P Q S. eapply (default_range glob (node_vars sn) rho F N Hglob HF HN e); eauto.
      + intros T' x K. apply P. lia.
      + intros _ x. rewrite Nat2Z.id. apply Q.
  Qed.

  Theorem mmeans_closed : forall p l, result (pipeline p) = Some l ->
    (forall sn i z, In sn (source_nodes p) -> In i (s_defs sn) -> In z (literal_values (right_side i)) -> Pr z) ->
    forall f ins outs, mmeans mode glob (moded_nodes p) f ins outs -> Forall good ins -> Forall good outs.
  Proof.
    intros p l R Lp f ins outs (n & D) Fi.
    assert (Nm : map snd (moded_nodes p) = source_nodes p).
    { unfold moded_nodes, source_nodes. clear. induction p as [|(a, d) p IH]; auto. cbn. rewrite map_app, IH. destruct d; auto. }
    revert f ins outs D Fi. induction n as [|n IH]; intros f ins outs D Fi; [destruct D|].
    cbn [mdenotes] in D. destruct D as (u & sn & po & I & E & Mn & ->). cbn zeta in Mn.
    assert (Is : In sn (source_nodes p)) by (rewrite <- Nm; apply in_map_iff; exists (u, sn); auto).
    destruct (source_node_in _ _ Is) as (a & Ia). destruct (pipeline_covers _ _ R _ _ Ia) as (d & o & nd & _ & W & Fo & C).
    apply weave_range; [apply absent_range|]. eapply (node_range o sn nd _ _ C); [| | | |exact Mn].
    - intros i Ji z Jz. apply (Lp sn i z Is Ji). destruct i; auto.
    - intros g args v (os & D) Fa. apply (IH _ _ _ D) in Fa. apply Forall_app in Fa. destruct Fa as [_ Fa]. inversion Fa; auto.
    - intros g v (sn' & _ & _ & ->). apply absent_range.
    - apply Forall_forall. intros v J. apply filter_In in J. rewrite Forall_forall in Fi. apply Fi. apply J.
  Qed.

  Theorem run_closed : forall p l, result (pipeline p) = Some l ->
    (forall sn i z, In sn (source_nodes p) -> In i (s_defs sn) -> In z (literal_values (right_side i)) -> Pr z) ->
    forall f i ins outs i', init_inst (nodes_of l) f = Ok i -> run mode glob (nodes_of l) f i ins = Ok (outs, i') ->
    Forall good ins -> Forall good outs.
  Proof. intros p l R Lp f i ins outs i' Ii Ri. eapply mmeans_closed; eauto. eapply moded_program_sound; eauto. Qed.
End Program.

End Closed.
