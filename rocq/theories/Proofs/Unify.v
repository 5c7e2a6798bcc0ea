(** Instantiation of generic nodes: [identical] finds the substitution. *)
From Coq Require Import String List ZArith Bool Arith Lia.
From Verif Require Import Model.Base Model.Scalar Model.Ast Model.Errors Model.Interp Model.Typecheck Spec.TypeSpec Proofs.OutBasics Proofs.TypeEval.
Import ListNotations.

Lemma base_eqb_spec : forall a b, base_eqb a b = true <-> a = b.
Proof.
  intros [] []; cbn; split; intros H; try discriminate; auto; try (apply String.eqb_eq in H; subst; auto);
    inversion H; subst; apply String.eqb_refl.
Qed.
Lemma base_eqb_refl : forall a, base_eqb a a = true.
Proof. intros. apply base_eqb_spec. auto. Qed.
Lemma flat_tuple : forall l, flat l = tuple_ty l.
Proof. reflexivity. Qed.

(** Name for the local loop of [identical]. *)
Fixpoint identicals (u : unifier) (ts us : list ty) {struct ts} : out (option unifier) :=
  match ts, us with
  | t :: ts, v :: us =>
      r <~ attempt (identical u t v);;
      match r with
      | Some u => identicals u ts us
      | None => _ <~ identicals u ts us;; done None
      end
  | _, _ => done (Some u)
  end.
Lemma identical_mult : forall u ts us, identical u (TMult ts) (TMult us) =
  if length ts =? length us then r <~ identicals u ts us;; need r else fail ETypeMismatch.
Proof. reflexivity. Qed.

(** ** Identity *)
Lemma identical_eq : forall a b u, result (identical UIdentity a b) = Some u -> u = UIdentity /\ a = b.
Proof.
  induction a using ty_ind'; intros b' u E.
  - destruct b' as [r|]; [|discriminate]. cbn in E. unfold require_identical in E.
    destruct (base_eqb b r) eqn:Eq; [apply base_eqb_spec in Eq; subst; destruct r; inv_out; auto|destruct b; discriminate].
  - destruct b' as [|us]; [discriminate|]. rewrite identical_mult in E. destruct (length l =? length us) eqn:L; [|discriminate].
    apply Nat.eqb_eq in L. inv_out.
    assert (G : u = UIdentity /\ l = us).
    { revert us L E0. induction H as [|t ts Ht _ IH]; intros [|v us] L E; cbn in L; try discriminate.
      - cbn in E. inv_out. auto.
      - cbn [identicals] in E. inv_out. destruct r as [u'|]; [|inv_out]. apply Ht in E0. destruct E0 as [-> ->].
        destruct (IH us) as [-> ->]; auto. }
    destruct G as [-> ->]. auto.
Qed.
Lemma identical_refl : forall a, result (identical UIdentity a a) = Some UIdentity.
Proof.
  induction a using ty_ind'.
  - cbn. unfold require_identical. rewrite base_eqb_refl. destruct b; auto.
  - rewrite identical_mult, Nat.eqb_refl.
    assert (G : result (identicals UIdentity l l) = Some (Some UIdentity)).
    { induction H as [|t ts Ht _ IH]; auto. cbn [identicals]. destruct (identical UIdentity t t) as [r es ws|]; cbn in Ht; [|discriminate].
      subst. cbn. cbn in IH. destruct (identicals UIdentity ts ts); auto. }
    destruct (identicals UIdentity l l) as [r es ws|]; cbn in G; [|discriminate]. subst. cbn. auto.
Qed.

(** ** Mappings *)
Definition extends (m m' : list (ident * option base)) : Prop :=
  map fst m' = map fst m /\ forall x v, lookup x m = Some (Some v) -> lookup x m' = Some (Some v).
Fixpoint ty_vars (t : ty) : list ident :=
  match t with
  | TSingle (BOther x) => [x]
  | TSingle _ => []
  | TMult l => flat_map ty_vars l
  end.
Definition assigned (m : list (ident * option base)) (t : ty) : Prop :=
  forall x, In x (ty_vars t) -> exists v, lookup x m = Some (Some v).

Lemma extends_refl : forall m, extends m m.
Proof. split; auto. Qed.
Lemma extends_trans : forall a b c, extends a b -> extends b c -> extends a c.
Proof. intros a b c [H1 H2] [K1 K2]. split; [congruence|]. auto. Qed.

Lemma lookup_in : forall {A} x (l : list (ident * A)), In x (map fst l) -> exists a, lookup x l = Some a.
Proof.
  induction l as [|[y a] l IH]; cbn; [tauto|]. intros [->|J]; [rewrite String.eqb_refl; eauto|].
  destruct (String.eqb x y); eauto.
Qed.
Lemma in_lookup : forall {A} x (l : list (ident * A)) a, lookup x l = Some a -> In x (map fst l).
Proof.
  induction l as [|[y b] l IH]; cbn; [discriminate|]. intros a. destruct (String.eqb_spec x y); subst; auto. intros E. right. eauto.
Qed.

Lemma lookup_assign : forall x y r m,
  lookup y (map (fun '(y, o) => (y, if String.eqb x y then Some r else o)) m) =
  match lookup y m with Some o => Some (if String.eqb x y then Some r else o) | None => (None : option (option base)) end.
Proof.
  intros x y r m. induction m as [|[z o] m IH]; cbn; auto. destruct (String.eqb_spec y z); subst; auto.
Qed.
Lemma extends_assign : forall x r m, lookup x m = Some None ->
  extends m (map (fun '(y, o) => (y, if String.eqb x y then Some r else o)) m).
Proof.
  intros x r m L. split; [rewrite map_map; apply map_ext; intros []; auto|].
  intros y v E. rewrite lookup_assign, E. destruct (String.eqb_spec x y); auto. subst. congruence.
Qed.

Lemma subst_extends : forall m m' t, extends m m' -> assigned m t -> subst_ty m' t = subst_ty m t.
Proof.
  intros m m' t X. induction t using ty_ind'; intros A.
  - cbn. destruct b as [| | |x]; auto. destruct (A x) as (v & L); [cbn; auto|]. cbn. rewrite L, (proj2 X _ _ L). auto.
  - cbn. f_equal. apply map_ext_in. intros t J. rewrite Forall_forall in H. apply H; auto. intros x K. apply A. cbn. apply in_flat_map. eauto.
Qed.
Lemma assigned_extends : forall m m' t, extends m m' -> assigned m t -> assigned m' t.
Proof. intros m m' t X A x J. destruct (A x J) as (v & L). exists v. apply X. auto. Qed.

Lemma identical_sound : forall a b m u, result (identical (UMapping m) a b) = Some u ->
  exists m', u = UMapping m' /\ extends m m' /\ assigned m' a /\ b = subst_ty m' a.
Proof.
  induction a using ty_ind'; intros b' m u E.
  - destruct b' as [r|]; [|discriminate]. cbn in E. destruct b as [| | |x].
    1-3: destruct r; cbn in E; try discriminate; inv_out; exists m; (split; [auto|]); (split; [apply extends_refl|]); (split; [intros x []|auto]).
    cbn in E. destruct (lookup x m) as [[v|]|] eqn:L; [| |discriminate].
    + destruct (base_eqb v r) eqn:Eq; inv_out. apply base_eqb_spec in Eq. subst. exists m. split; auto. split; [apply extends_refl|].
      split; [intros y [<-|[]]; eauto|]. cbn. rewrite L. auto.
    + inv_out. eexists. split; [reflexivity|]. split; [apply extends_assign; auto|]. split.
      * intros y [<-|[]]. rewrite lookup_assign, L, String.eqb_refl. eauto.
      * cbn. rewrite lookup_assign, L, String.eqb_refl. auto.
  - destruct b' as [|us]; [discriminate|]. rewrite identical_mult in E. destruct (length l =? length us) eqn:L; [|discriminate].
    apply Nat.eqb_eq in L. inv_out.
    assert (G : exists m', u = UMapping m' /\ extends m m' /\ Forall (assigned m') l /\ us = map (subst_ty m') l).
    { revert m us L E0. induction H as [|t ts Ht _ IH]; intros m [|v us] L E; cbn in L; try discriminate.
      - cbn in E. inv_out. exists m. split; auto. split; [apply extends_refl|]. auto.
      - cbn [identicals] in E. inv_out. destruct r as [u'|]; [|inv_out]. apply Ht in E0. destruct E0 as (m1 & -> & X1 & A1 & ->).
        destruct (IH m1 us) as (m2 & -> & X2 & A2 & ->); auto. exists m2. split; auto. split; [eapply extends_trans; eauto|].
        split; [constructor; auto; eapply assigned_extends; eauto|]. cbn. f_equal. symmetry. apply subst_extends; auto. }
    destruct G as (m' & -> & X & A & ->). exists m'. split; auto. split; auto. split; auto.
    intros x J. cbn in J. apply in_flat_map in J. destruct J as (t & J & K). rewrite Forall_forall in A. eapply A; eauto.
Qed.

Definition consistent (m : list (ident * option base)) (s : ident -> base) : Prop := forall x v, lookup x m = Some (Some v) -> s x = v.

Lemma identical_complete : forall a m s, consistent m s -> (forall x, In x (ty_vars a) -> In x (map fst m)) ->
  exists m', result (identical (UMapping m) a (inst_ty s a)) = Some (UMapping m') /\ extends m m' /\ consistent m' s /\ assigned m' a.
Proof.
  induction a using ty_ind'; intros m s C K.
  - destruct b as [| | |x].
    1-3: exists m; (split; [reflexivity|]); (split; [apply extends_refl|]); (split; [auto|intros x []]).
    destruct (lookup_in x m) as (o & L); [apply K; cbn; auto|]. cbn. rewrite L. destruct o as [v|].
    + rewrite (C _ _ L), base_eqb_refl. exists m. split; auto. split; [apply extends_refl|]. split; auto. intros y [<-|[]]. eauto.
    + eexists. split; [reflexivity|]. split; [apply extends_assign; auto|]. split.
      * intros y v E. rewrite lookup_assign in E. destruct (lookup y m) as [o|] eqn:Ly; [|discriminate].
        destruct (String.eqb_spec x y); [subst|]; inversion E; subst; auto.
      * intros y [<-|[]]. rewrite lookup_assign, L, String.eqb_refl. eauto.
  - cbn [inst_ty]. rewrite identical_mult, map_length, Nat.eqb_refl.
    assert (G : exists m', result (identicals (UMapping m) l (map (inst_ty s) l)) = Some (Some (UMapping m')) /\ extends m m' /\ consistent m' s /\ Forall (assigned m') l).
    { revert m C K. induction H as [|t ts Ht _ IH]; intros m C K.
      - exists m. cbn. split; auto. split; [apply extends_refl|]. auto.
      - destruct (Ht m s C) as (m1 & E1 & X1 & C1 & A1); [intros x J; apply K; cbn; apply in_or_app; auto|].
        destruct (IH m1 C1) as (m2 & E2 & X2 & C2 & A2).
        { intros x J. rewrite (proj1 X1). apply K. cbn. apply in_or_app. auto. }
        exists m2. cbn [map identicals]. split.
        + destruct (identical (UMapping m) t (inst_ty s t)) as [r es ws|]; cbn in E1; [|discriminate]. subst. cbn.
          destruct (identicals (UMapping m1) ts (map (inst_ty s) ts)); cbn in E2; [|discriminate]. subst. auto.
        + split; [eapply extends_trans; eauto|]. split; auto. constructor; auto. eapply assigned_extends; eauto. }
    destruct G as (m' & E & X & C' & A). exists m'. split.
    + destruct (identicals (UMapping m) l (map (inst_ty s) l)) as [r es ws|]; cbn in E; [|discriminate]. subst. cbn. auto.
    + split; auto. split; auto. intros x J. cbn in J. apply in_flat_map in J. destruct J as (t & J & J'). rewrite Forall_forall in A. eapply A; eauto.
Qed.

(** ** Parameters *)
Definition blank (l : list ident) : list (ident * option base) := map (fun x => (x, None)) l.
Lemma from_generics_some : forall l u, result (from_generics l) = Some u -> NoDup l /\ u = UMapping (blank l).
Proof.
  induction l as [|g l IH]; intros u E; cbn [from_generics] in E; inv_out.
  - split; [constructor|auto].
  - apply IH in E0. destruct E0 as [N ->]. destruct (existsb (String.eqb g) l) eqn:X; inv_out. split; auto. constructor; auto.
    intros J. assert (existsb (String.eqb g) l = true); [|congruence]. apply existsb_exists. exists g. split; auto. apply String.eqb_refl.
Qed.
Lemma from_generics_ok : forall l, NoDup l -> from_generics l = done (UMapping (blank l)).
Proof.
  induction 1 as [|g l J _ IH]; auto. cbn [from_generics]. rewrite IH. cbn.
  destruct (existsb (String.eqb g) l) eqn:X; auto. apply existsb_exists in X. destruct X as (y & I & E). apply String.eqb_eq in E. subst. tauto.
Qed.
Lemma lookup_blank : forall x l o, lookup x (blank l) = Some o -> o = None.
Proof. induction l as [|g l IH]; cbn; intros o E; [discriminate|]. destruct (String.eqb x g); auto. congruence. Qed.

Lemma instances_some : forall m l, result (instances m) = Some l -> m = combine (map fst m) (map Some l) /\ length l = length m.
Proof.
  induction m as [|[x [b|]] m IH]; intros l E; cbn [instances] in E; inv_out; cbn; auto.
  apply IH in E0. destruct E0 as [E1 E2]. split; [f_equal; auto|auto].
Qed.
Lemma instances_ok : forall m, (forall x o, In (x, o) m -> o <> None) -> exists l, result (instances m) = Some l.
Proof.
  induction m as [|[x [b|]] m IH]; intros H; cbn [instances].
  - cbn. eauto.
  - destruct IH as (l & E); [intros y o J; apply (H y); cbn; auto|]. destruct (instances m); cbn in *; [|discriminate]. subst. cbn. eauto.
  - exfalso. apply (H x None); cbn; auto.
Qed.

(** The substitution recorded for a call site. *)
Definition subst_of (params : list ident) (l : list base) (x : ident) : base :=
  match lookup x (combine params l) with Some v => v | None => BOther x end.
Lemma subst_of_map : forall params l b, subst_base (combine params (map Some l)) b = inst_base (subst_of params l) b.
Proof.
  intros params l [| | |x]; auto. cbn. unfold subst_of.
  revert l. induction params as [|g params IH]; intros [|v l]; cbn; auto. destruct (String.eqb x g); auto.
Qed.
Lemma subst_of_ty : forall params l t, subst_ty (combine params (map Some l)) t = inst_ty (subst_of params l) t.
Proof.
  intros params l t. induction t using ty_ind'; cbn; [rewrite subst_of_map; auto|].
  f_equal. apply map_ext_in. rewrite Forall_forall in H. auto.
Qed.
Lemma inst_flat : forall s l, inst_ty s (flat l) = flat (map (inst_base s) l).
Proof. intros s [|a [|b l]]; auto. cbn. f_equal. f_equal. f_equal. rewrite !map_map. apply map_ext. auto. Qed.

(** What a successful instantiation computes. *)
Lemma instantiate_sound : forall params ins outs actual u m l,
  result (from_generics params) = Some u ->
  forall u', result (identical u (flat ins) actual) = Some u' -> u' = UMapping m -> result (instances m) = Some l ->
  actual = flat (map (inst_base (subst_of params l)) ins) /\ subst_ty m (flat outs) = flat (map (inst_base (subst_of params l)) outs) /\
  length l = length params.
Proof.
  intros params ins outs actual u m l E1 u' E2 -> E3. apply from_generics_some in E1. destruct E1 as [N ->].
  apply identical_sound in E2. destruct E2 as (m' & Em & [K X] & A & ->). inversion Em; subst m'.
  apply instances_some in E3. destruct E3 as [E3 L].
  assert (K' : map fst m = params).
  { rewrite K. unfold blank. rewrite map_map. cbn. apply map_id. }
  rewrite K' in E3. rewrite E3, !subst_of_ty, !inst_flat. split; auto. split; auto. rewrite L, <- K', map_length. auto.
Qed.

Lemma in_ty_vars_flat : forall x l, In x (ty_vars (flat l)) <-> In (BOther x) l.
Proof.
  intros x l. assert (G : forall l, In x (flat_map ty_vars (map TSingle l)) <-> In (BOther x) l).
  { clear l. induction l as [|b l IH]; cbn; [tauto|]. rewrite in_app_iff, IH. destruct b; cbn; split; intros [H|H]; auto; try tauto; try discriminate.
    - destruct H; subst; tauto.
    - inversion H; auto. }
  destruct l as [|b [|b' l]]; try apply G. specialize (G [b]). cbn in G |- *. rewrite app_nil_r in G. auto.
Qed.

Lemma instantiate_complete : forall params ins outs s, NoDup params ->
  (forall x, In (BOther x) ins <-> In x params) -> (forall x, In (BOther x) outs -> In x params) ->
  exists m l, result (identical (UMapping (blank params)) (flat ins) (flat (map (inst_base s) ins))) = Some (UMapping m) /\
    result (instances m) = Some l /\ subst_ty m (flat outs) = flat (map (inst_base s) outs).
Proof.
  intros params ins outs s N Hi Ho. rewrite <- !inst_flat.
  assert (Kb : map fst (blank params) = params) by (unfold blank; rewrite map_map; cbn; apply map_id).
  destruct (identical_complete (flat ins) (blank params) s) as (m & E & [K X] & C & A).
  - intros x v L. apply lookup_blank in L. discriminate.
  - intros x J. rewrite Kb. apply Hi. apply in_ty_vars_flat. auto.
  - rewrite Kb in K.
    assert (Ha : forall x, In x params -> lookup x m = Some (Some (s x))).
    { intros x J. destruct (A x) as (v & L); [apply in_ty_vars_flat, Hi; auto|]. rewrite L, (C _ _ L). auto. }
    destruct (instances_ok m) as (l & El).
    { intros x o J ->. assert (Jx : In x params) by (rewrite <- K; apply (in_map fst) in J; exact J).
      apply Ha in Jx. rewrite <- K in N. clear -J N Jx. induction m as [|[y o] m IH]; cbn in *; [tauto|]. inversion N; subst.
      destruct (String.eqb_spec x y).
      - inversion Jx; subst. destruct J as [J|J]; [congruence|]. apply H1. apply (in_map fst) in J. exact J.
      - destruct J as [J|J]; [inversion J; congruence|auto]. }
    exists m, l. split; auto. split; auto.
    assert (G : forall t, (forall x, In x (ty_vars t) -> In x params) -> subst_ty m t = inst_ty s t).
    { induction t using ty_ind'; intros V.
      - cbn. destruct b as [| | |x]; auto. cbn. rewrite Ha; auto. apply V. cbn. auto.
      - cbn. f_equal. apply map_ext_in. intros t J. rewrite Forall_forall in H. apply H; auto. intros x Jx. apply V. cbn. apply in_flat_map. eauto. }
    apply G. intros x J. apply Ho. apply in_ty_vars_flat. auto.
Qed.

Lemma instantiate_unique : forall ins s s', flat (map (inst_base s) ins) = flat (map (inst_base s') ins) ->
  forall x, In (BOther x) ins -> s x = s' x.
Proof.
  intros ins s s' E x J.
  assert (M : map (inst_base s) ins = map (inst_base s') ins).
  { assert (Inj : forall l l', map TSingle l = map TSingle l' -> l = l').
    { induction l as [|c l IH]; intros [|c' l'] H; cbn in H; try discriminate; auto. inversion H. f_equal; auto. }
    destruct ins as [|a [|b l]]; auto; [cbn in *; congruence|].
    apply Inj. cbn in *. congruence. }
  clear E. induction ins as [|b l IH]; [destruct J|]. cbn in M. inversion M. destruct J as [->|J]; auto.
Qed.
