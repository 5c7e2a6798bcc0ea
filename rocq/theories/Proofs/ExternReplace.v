(** Nodes and extern nodes can be replaced by equivalent ones. *)
From Coq Require Import String List ZArith Bool Arith Lia.
From Verif Require Import Model.Base Model.Scalar Model.Value Model.Register Model.Ast Model.Errors Model.Interp Model.Options Model.Surface Model.Translate
  Model.Pipeline Model.Extern
  Spec.StepSpec Spec.SurfaceSem Spec.ProgramSem Spec.SettledSem Spec.SafetySpec Spec.ExternSem Spec.ExternSettled Spec.Replace Spec.SourceCausal Spec.ConstSpec Spec.Inline Spec.Laws
  Proofs.OutBasics Proofs.InterpBasics Proofs.ProgramProofs Proofs.PipelineProofs Proofs.Exact Proofs.Asserts Proofs.Inline Proofs.Laws Proofs.ExternExact.
Import ListNotations.

Section Replaced.
  Variable mode : ovf.
  Variable glob : ident -> option scalar.
  Variables ext ext' : ident -> behaviour.
  Variables p q : sprog.
  Hypothesis R : Forall2 (kept_decl mode glob) p q.
  Hypothesis E : forall x past v w, ext x past v = Ok w -> ext' x past v = Ok w.

  Lemma kept_silence : forall f v, silence p f v -> silence q f v.
  Proof.
    intros f v [(a & sn & I & <- & ->)|(a & i & o & I & ->)]; destruct (forall2_in_left _ _ _ R _ I) as (b & J & [<-|(sn0 & sn' & E1 & -> & E2 & E3 & _)]).
    - left. eauto.
    - cbn in E1, J. inversion E1; subst. left. exists a, sn'. rewrite E3. auto.
    - right. eauto.
    - discriminate E1.
  Qed.

  Lemma kept_settles : forall n f ins outs, xsettles mode glob ext p n f ins outs -> xsettles mode glob ext' q n f ins outs.
  Proof.
    assert (X : forall f ins outs, (exists a i o pouts, In (a, XExtNode f i o) p /\ Forall (fits (declared i)) (filter (fun v => negb (first_is_nil v)) ins) /\
        responds (ext f) (declared o) (filter (fun v => negb (first_is_nil v)) ins) pouts /\ outs = weave (absent_row (declared o)) ins pouts) ->
      exists a i o pouts, In (a, XExtNode f i o) q /\ Forall (fits (declared i)) (filter (fun v => negb (first_is_nil v)) ins) /\
        responds (ext' f) (declared o) (filter (fun v => negb (first_is_nil v)) ins) pouts /\ outs = weave (absent_row (declared o)) ins pouts).
    { intros f ins outs (a & i & o & po & I & Fi & (L & M) & W). destruct (forall2_in_left _ _ _ R _ I) as (b & J & [<-|(sn0 & sn' & E1 & _)]); [|discriminate E1].
      exists a, i, o, po. repeat split; auto. intros T v Hv. destruct (M T v Hv) as (w & ns & A & B). exists w, ns. auto. }
    induction n as [|n IH]; intros f ins outs [H|H]; try (left; apply X; exact H); [destruct H|]. right.
    destruct H as (a & sn & po & I & Q & M & W). destruct (forall2_in_left _ _ _ R _ I) as (b & J & S).
    assert (M' : node_settles mode glob (fun g args v => exists os, xsettles mode glob ext' q n g args (os ++ [v])) (silence q) sn (filter (fun v => negb (first_is_nil v)) ins) po).
    { eapply node_settles_mono; [| |exact M]; [|apply kept_silence]. intros g args v (os & D). eauto. }
    destruct S as [<-|(sn0 & sn' & E1 & -> & E2 & E3 & Kp)]; [exists a, sn, po; auto|].
    cbn in E1, J. inversion E1; subst. exists a, sn', po. rewrite E3. split; [auto|]. split; [auto|]. split; [apply Kp; exact M'|auto].
  Qed.
End Replaced.

Theorem extern_replaced : forall mode glob ext ext' p q l m, Forall2 (kept_decl mode glob) p q ->
  (forall x past v w, ext x past v = Ok w -> ext' x past v = Ok w) ->
  result (pipeline p) = Some l -> result (pipeline q) = Some m -> default_mode p ->
  (forall x t, constant p x t -> glob x <> None) ->
  (forall x past v, ext x past v <> Panic PPast /\ ext x past v <> Panic PUnbound) ->
  (forall x past v, ext' x past v <> Panic PPast /\ ext' x past v <> Panic PUnbound) ->
  forall f ins outs, xoutputs mode glob ext (items_of l) f ins = Ok outs -> xoutputs mode glob ext' (items_of m) f ins = Ok outs.
Proof.
  intros mode glob ext ext' p q l m R E Hp Hq D K X X' f ins outs O.
  assert (D' : default_mode q).
  { intros a sn J. destruct (forall2_in_right _ _ _ R _ J) as ([c1 c2] & I & [Q|(sn0 & sn' & E1 & E2 & _)]); [inversion Q; subst; eapply D; eauto|].
    cbn in E1, E2. inversion E2; subst. eapply D; eauto. }
  assert (K' : forall x t, constant q x t -> glob x <> None).
  { intros x t (a & [(e & J)|J]); destruct (forall2_in_right _ _ _ R _ J) as (c & I & [->|(sn & sn' & E1 & E2 & _)]); try discriminate E2; apply (K x t); exists a; eauto. }
  apply (extern_exact mode glob ext p l Hp D K X) in O. destruct O as (n & S).
  apply (extern_exact mode glob ext' q m Hq D' K' X'). exists n. eapply kept_settles; eauto.
Qed.

Lemma forall2_same : forall A (P : A -> A -> Prop) l, (forall a, P a a) -> Forall2 P l l.
Proof. induction l; constructor; auto. Qed.

(** ** The transformations of the other claims *)
Lemma kept_rewritten : forall mode glob (R : sexpr -> sexpr -> Prop) p q, (forall e e', R e e' -> refines mode glob e e') ->
  Forall2 (rewritten_decl R) p q -> Forall2 (kept_decl mode glob) p q.
Proof.
  intros mode glob R p q HR H. eapply forall2_weaken; [|exact H].
  intros a b [d|a0 f i o v s s' X]; [left; auto|]. right. eexists. eexists. cbn. split; [reflexivity|]. split; [reflexivity|]. cbn. split; auto. split; auto.
  eapply rewritten_kept; eauto.
Qed.
Lemma kept_split : forall mode glob p q, Forall2 split_decl p q -> Forall2 (kept_decl mode glob) p q /\ Forall2 (kept_decl mode glob) q p.
Proof.
  intros mode glob p q H. split; [|apply forall2_flip in H]; (eapply forall2_weaken; [|exact H]); intros a b X; destruct X as [d|a0 f i o v s s' X]; try (left; reflexivity);
    right; eexists; eexists; cbn; (split; [reflexivity|]); (split; [reflexivity|]); cbn; (split; [auto|]); (split; [auto|]); apply (split_kept mode glob f i o v s s' X).
Qed.
Lemma kept_inlined : forall mode glob p q,
  Forall2 (fun a b => a = b \/ exists sn sn', snd a = XNode sn /\ b = (fst a, XNode sn') /\ inlined sn sn') p q -> Forall2 (kept_decl mode glob) p q.
Proof.
  intros mode glob p q H. eapply forall2_weaken; [|exact H]. intros a b [->|(sn & sn' & E1 & E2 & X)]; [left; auto|]. right. exists sn, sn'. split; auto. split; auto.
  pose proof (inlined_kept mode glob _ _ X) as Kp. destruct X. auto.
Qed.
Lemma fewer_in : forall l l', fewer_asserts l l' -> forall i, In i l' -> In i l.
Proof. induction 1; intros j J; cbn in *; auto. destruct J; auto. Qed.
Lemma kept_asserts : forall mode glob p q, Forall2 asserts_less p q -> Forall2 (kept_decl mode glob) p q.
Proof.
  intros mode glob p q H. eapply forall2_weaken; [|exact H]. intros a b X. destruct X as [d|a f i o v s s' X]; [left; auto|].
  right. eexists. eexists. cbn. split; [reflexivity|]. split; [reflexivity|]. cbn. split; auto. split; auto.
  intros F N ins outs (Len & rho & M). split; auto. exists rho. intros T vv oo Hv Ho. destruct (M T vv oo Hv Ho) as (A & B & C). split; [exact A|]. split; [|exact C].
  intros j J. apply B. cbn in *. eapply fewer_in; eauto.
Qed.

Theorem extern_asserts : forall mode glob ext p q l m, Forall2 asserts_less p q ->
  result (pipeline p) = Some l -> result (pipeline q) = Some m -> default_mode p -> (forall x t, constant p x t -> glob x <> None) -> ordinary ext ->
  forall f ins outs, xoutputs mode glob ext (items_of l) f ins = Ok outs -> xoutputs mode glob ext (items_of m) f ins = Ok outs.
Proof. intros mode glob ext p q l m H Hp Hq D K X. apply (extern_replaced mode glob ext ext p q l m); auto. apply kept_asserts. auto. Qed.

Theorem extern_inlined : forall mode glob ext p q l m,
  Forall2 (fun a b => a = b \/ exists sn sn', snd a = XNode sn /\ b = (fst a, XNode sn') /\ inlined sn sn') p q ->
  result (pipeline p) = Some l -> result (pipeline q) = Some m -> default_mode p -> (forall x t, constant p x t -> glob x <> None) -> ordinary ext ->
  forall f ins outs, xoutputs mode glob ext (items_of l) f ins = Ok outs -> xoutputs mode glob ext (items_of m) f ins = Ok outs.
Proof. intros mode glob ext p q l m H Hp Hq D K X. apply (extern_replaced mode glob ext ext p q l m); auto. apply kept_inlined. auto. Qed.

Lemma default_back : forall (R : sattrdecl -> sattrdecl -> Prop) p q, Forall2 R p q ->
  (forall a b, R a b -> a = b \/ exists sn sn', snd a = XNode sn /\ b = (fst a, XNode sn')) -> default_mode p ->
  default_mode q /\ forall x t, constant q x t -> constant p x t.
Proof.
  intros R p q H RR D.
  assert (Back : forall b, In b q -> exists a, In a p /\ (a = b \/ exists sn sn', snd a = XNode sn /\ b = (fst a, XNode sn')))
    by (intros b J; destruct (forall2_in_right _ _ _ H _ J) as (a & I & X); eauto).
  split.
  - intros a sn J. destruct (Back _ J) as ([c1 c2] & I & [E|(sn0 & sn' & E1 & E2)]); [inversion E; subst; eapply D; eauto|].
    cbn in E1, E2. inversion E2; subst. eapply D; eauto.
  - intros x t (a & [(e & J)|J]); destruct (Back _ J) as (c & I & [->|(sn & sn' & E1 & E2)]); try discriminate E2; exists a; eauto.
Qed.

Theorem extern_laws : forall mode glob ext p q l m, Forall2 (rewritten_decl (fun a b => law a b \/ law b a)) p q ->
  result (pipeline p) = Some l -> result (pipeline q) = Some m -> default_mode p -> (forall x t, constant p x t -> glob x <> None) -> ordinary ext ->
  forall f ins outs, xoutputs mode glob ext (items_of l) f ins = Ok outs <-> xoutputs mode glob ext (items_of m) f ins = Ok outs.
Proof.
  intros mode glob ext p q l m H Hp Hq D K X f ins outs.
  assert (S : default_mode q /\ forall x t, constant q x t -> constant p x t).
  { eapply (default_back _ p q H); auto. intros a b [d|a0 f0 i o v s s' Y]; [left; auto|right; eexists; eexists; cbn; split; reflexivity]. }
  destruct S as (D' & K'). split.
  - apply (extern_replaced mode glob ext ext p q l m); auto. eapply kept_rewritten; [|exact H]. intros e e' [Y|Y]; apply (laws_hold mode glob _ _ Y).
  - apply (extern_replaced mode glob ext ext q p m l); auto; [|intros x t Y; eauto].
    apply rewritten_flip in H. eapply kept_rewritten; [|exact H]. intros e e' [Y|Y]; apply (laws_hold mode glob _ _ Y).
Qed.

Theorem extern_split : forall mode glob ext p q l m, Forall2 split_decl p q ->
  result (pipeline p) = Some l -> result (pipeline q) = Some m -> default_mode p -> (forall x t, constant p x t -> glob x <> None) -> ordinary ext ->
  forall f ins outs, xoutputs mode glob ext (items_of l) f ins = Ok outs <-> xoutputs mode glob ext (items_of m) f ins = Ok outs.
Proof.
  intros mode glob ext p q l m H Hp Hq D K X f ins outs. destruct (kept_split mode glob p q H) as [K1 K2].
  assert (S : default_mode q /\ forall x t, constant q x t -> constant p x t).
  { eapply (default_back _ p q H); auto. intros a b [d|a0 f0 i o v s s' Y]; [left; auto|right; eexists; eexists; cbn; split; reflexivity]. }
  destruct S as (D' & K'). split.
  - apply (extern_replaced mode glob ext ext p q l m); auto.
  - apply (extern_replaced mode glob ext ext q p m l); auto. intros x t Y; eauto.
Qed.
