(** Assertions only check. *)
From Coq Require Import String List ZArith Bool Arith Lia.
From Verif Require Import Model.Base Model.Scalar Model.Value Model.Register Model.Ast Model.Errors Model.Interp Model.Options Model.Surface Model.Translate
  Model.Pipeline Model.Extern
  Spec.StepSpec Spec.SurfaceSem Spec.ProgramSem Spec.SettledSem Spec.SafetySpec Spec.ExternSem Spec.OrderSpec Spec.SourceCausal Spec.TypeSpec Spec.ClockSpec
  Spec.RangeSpec Spec.AttrSpec Spec.ConstSpec Spec.CrashSpec Spec.Static Spec.Replace
  Proofs.OutBasics Proofs.InterpBasics Proofs.ProgramProofs Proofs.PipelineProofs Proofs.StaticProgram Proofs.Exact Proofs.Replace.
Import ListNotations.

Lemma fewer_incl : forall l l', fewer_asserts l l' -> incl l' l.
Proof. induction 1; intros x J; auto; [destruct J; [left|right]; auto|right; auto]. Qed.
Lemma fewer_assigns : forall l l', fewer_asserts l l' -> flat_map assigns l' = flat_map assigns l.
Proof. induction 1; cbn; congruence. Qed.
Lemma fewer_nth : forall l l', fewer_asserts l l' -> exists phi, forall k i, nth_error l' k = Some i -> nth_error l (phi k) = Some i.
Proof.
  induction 1 as [|i l l' H (phi & IH)|e l l' H (phi & IH)].
  - exists (fun k => k). auto.
  - exists (fun k => match k with 0 => 0 | S k => S (phi k) end). intros [|k] j; cbn; auto.
  - exists (fun k => S (phi k)). cbn. auto.
Qed.

Lemma fewer_solvable : forall f i o v l l', fewer_asserts l l' -> solvable (mkSNode f i o v l) -> solvable (mkSNode f i o v l').
Proof.
  intros f i o v l l' H (A & B & C & D). unfold solvable in *. cbn [s_defs s_inputs s_outputs s_locals] in *. rewrite (fewer_assigns _ _ H). repeat split; auto.
  destruct (fewer_nth _ _ H) as (phi & P).
  assert (G : forall j k, waits_plus (mkSNode f i o v l') j k -> waits_plus (mkSNode f i o v l) (phi j) (phi k)).
  { assert (W : forall j k, waits_for (mkSNode f i o v l') j k -> waits_for (mkSNode f i o v l) (phi j) (phi k)).
    { intros j k (a & b & x & X1 & X2 & X3). exists a, b, x. cbn [s_defs] in *. auto. }
    induction 1; [apply wp_one|eapply wp_more]; eauto. }
  intros j X. eapply D. eauto.
Qed.

Lemma forall2_nth_r : forall {A B} (R : A -> B -> Prop) l l', Forall2 R l l' -> forall k b, nth_error l' k = Some b -> exists a, nth_error l k = Some a /\ R a b.
Proof. induction 1; intros [|k] b E; cbn in *; try discriminate; [inversion E; subst; eauto|eauto]. Qed.
Lemma forall2_in_right : forall {A B} (R : A -> B -> Prop) l l', Forall2 R l l' -> forall b, In b l' -> exists a, In a l /\ R a b.
Proof. induction 1; intros b []; subst; eauto using in_eq. destruct (IHForall2 _ H1) as (a & J & K). eauto using in_cons. Qed.
Lemma forall2_in_left : forall {A B} (R : A -> B -> Prop) l l', Forall2 R l l' -> forall a, In a l -> exists b, In b l' /\ R a b.
Proof. induction 1; intros b []; subst; eauto using in_eq. destruct (IHForall2 _ H1) as (a & J & K). eauto using in_cons. Qed.

Section Less.
  Variables p q : sprog.
  Hypothesis L : Forall2 asserts_less p q.

  Lemma less_flat : forall {A} (g : sattrdecl -> list A), (forall a b, asserts_less a b -> g a = g b) -> flat_map g p = flat_map g q.
  Proof. intros A g G. induction L; cbn; [auto|]. f_equal; auto. Qed.
  Lemma less_constants : flat_map constant_of p = flat_map constant_of q.
  Proof. apply less_flat. intros a b []; reflexivity. Qed.
  Lemma less_interfaces : flat_map interface_of p = flat_map interface_of q.
  Proof. apply less_flat. intros a b []; reflexivity. Qed.
  Lemma less_introduces : map (fun a => introduces (snd a)) q = map (fun a => introduces (snd a)) p.
  Proof. induction L as [|a b p' q' H]; cbn; [auto|]. f_equal; auto. destruct H; reflexivity. Qed.
  Lemma less_mentions : forall a b, asserts_less a b -> forall n, mentions (snd b) n -> mentions (snd a) n.
  Proof.
    intros a b [|at' f i o v l l' H] n M; auto. destruct M as (e & J & M). exists e. split; [|destruct n; exact M].
    cbn in *. apply in_map_iff in J. destruct J as (s & <- & J). apply in_map_iff. exists s. split; auto. apply (fewer_incl _ _ H). auto.
  Qed.

  Lemma less_follows : forall i j, follows q i j -> follows p i j.
  Proof.
    intros i j (a & b & A & B & M). destruct (forall2_nth_r _ _ _ L _ _ A) as (a' & A' & Ra). destruct (forall2_nth_r _ _ _ L _ _ B) as (b' & B' & Rb).
    exists a', b'. split; auto. split; auto. apply (less_mentions _ _ Ra). replace (introduces (snd b')) with (introduces (snd b)); auto. destruct Rb; reflexivity.
  Qed.

  Lemma less_decl_ok : forall a b, asserts_less a b -> decl_ok p a -> decl_ok q b.
  Proof.
    intros a b [c|at' f i o v l l' H] (A & S & D).
    - split; auto. split; auto. destruct c as [at' [x t e|sn|x t|x i o]]; cbn [snd fst] in *; auto.
      + rewrite <- less_constants. auto.
      + unfold node_ok in *. rewrite <- less_constants, <- less_interfaces. auto.
    - split; [|split].
      + destruct A as (es & A1 & A2 & A3). exists es. repeat split; auto. cbn [snd] in *. clear - A3. induction A3; constructor; auto. constructor.
      + intros e z J. apply (S e z). cbn in *. apply in_map_iff in J. destruct J as (s & <- & J). apply in_map_iff. exists s. split; auto. apply (fewer_incl _ _ H). auto.
      + cbn [snd fst] in *. unfold node_ok in *. rewrite <- less_constants, <- less_interfaces. cbn [s_inputs s_outputs s_locals s_defs] in *.
        destruct D as (D1 & D2 & D3 & D4 & D5 & D6). split; auto. split; auto. split; auto. split; auto. split; [eapply fewer_solvable; eauto|].
        intros k J. apply (D6 k). apply (fewer_incl _ _ H). auto.
  Qed.

  Lemma less_well_formed : well_formed p -> well_formed q.
  Proof.
    intros (A & B & C). split; [|split].
    - intros b J. destruct (forall2_in_right _ _ _ L _ J) as (a & I & R). apply (less_decl_ok _ _ R). auto.
    - rewrite less_introduces. auto.
    - assert (G : forall i j, follows_plus q i j -> follows_plus p i j).
      { induction 1; [apply fp_one|eapply fp_more]; eauto using less_follows. }
      intros i X. apply (C i). auto.
  Qed.

  Lemma less_default : default_mode p -> default_mode q.
  Proof. intros D a sn J. destruct (forall2_in_right _ _ _ L _ J) as (b & I & R). inversion R; subst; eapply D; eauto. Qed.
  Lemma less_closed : closed p -> closed q.
  Proof. intros D a x i o J. destruct (forall2_in_right _ _ _ L _ J) as (b & I & R). inversion R; subst; eapply D; eauto. Qed.
  Lemma less_constant : forall x t, constant q x t -> constant p x t.
  Proof.
    intros x t (a & [(e & J)|J]); destruct (forall2_in_right _ _ _ L _ J) as (b & I & R); inversion R; subst; exists a; eauto.
  Qed.
  Lemma less_nodes : forall a, In a (source_nodes p) -> exists b, In b (source_nodes q) /\ exists f i o v l l',
    a = mkSNode f i o v l /\ b = mkSNode f i o v l' /\ fewer_asserts l l'.
  Proof.
    intros a J. apply in_flat_map in J. destruct J as (d & J & K). destruct (forall2_in_left _ _ _ L _ J) as (d' & J' & R).
    assert (X : forall l, fewer_asserts l l) by (induction l; constructor; auto).
    destruct R as [[at' d]|at' f i o v l l' H]; cbn in K.
    - destruct d; cbn in K; try tauto. destruct K as [<-|[]]. exists nd. split; [apply in_flat_map; eexists; split; [exact J'|cbn; auto]|].
      destruct nd as [f i o v l]. exists f, i, o, v, l, l. auto.
    - destruct K as [<-|[]]. exists (mkSNode f i o v l'). split; [apply in_flat_map; eexists; split; [exact J'|cbn; auto]|]. exists f, i, o, v, l, l'. auto.
  Qed.
End Less.

Theorem asserts_removed : forall p q l, Forall2 asserts_less p q -> result (pipeline p) = Some l -> exists m, result (pipeline q) = Some m.
Proof. intros p q l L H. apply accepted_well_formed. apply (less_well_formed p q L). apply accepted_well_formed. eauto. Qed.

Lemma fewer_kept : forall mode glob f i o v l l', fewer_asserts l l' -> solutions_kept mode glob (mkSNode f i o v l) (mkSNode f i o v l').
Proof.
  intros mode glob f i o v l l' H F N ins outs (E & rho & M). split; auto. exists rho. intros T x y Hx Hy. destruct (M T x y Hx Hy) as (A & B & C).
  split; auto. split; auto. intros s J. apply B. apply (fewer_incl _ _ H). auto.
Qed.

Theorem asserts_check : forall mode glob p q l m, Forall2 asserts_less p q ->
  result (pipeline p) = Some l -> result (pipeline q) = Some m -> closed p -> default_mode p ->
  (forall x t, constant p x t -> glob x <> None) ->
  forall f ins outs, outputs mode glob (nodes_of l) f ins = Ok outs -> outputs mode glob (nodes_of m) f ins = Ok outs.
Proof.
  intros mode glob p q l m L Hp Hq C D K. apply (replaced mode glob p q l m Hp Hq C (less_closed _ _ L C) D (less_default _ _ L D)).
  - intros x t [X|X]; [eauto|]. apply (less_constant _ _ L) in X. eauto.
  - intros a J. destruct (less_nodes _ _ L _ J) as (b & I & f & i & o & v & s & s' & -> & -> & F). exists (mkSNode f i o v s').
    split; auto. split; auto. split; auto. left. apply fewer_kept. auto.
Qed.
