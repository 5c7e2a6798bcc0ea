(** The order of the equations and of the declarations has no part in the static rules. *)
From Coq Require Import String List ZArith Bool Arith Lia Permutation.
From Verif Require Import Model.Base Model.Scalar Model.Value Model.Ast Model.Errors Model.Interp Model.Options Model.Surface Model.Translate
  Model.Causality Model.Typecheck Model.Pipeline
  Spec.TranslateSpec Spec.OrderSpec Spec.ProgramSem Spec.SourceCausal Spec.AttrSpec Spec.ConstSpec Spec.CrashSpec Spec.TypeSpec Spec.ClockSpec Spec.Static
  Proofs.OutBasics Proofs.PipelineProofs Proofs.DeclOrder Proofs.StaticProgram.
Import ListNotations.

Definition same_equations (n m : snode) : Prop :=
  s_name n = s_name m /\ s_inputs n = s_inputs m /\ s_outputs n = s_outputs m /\ s_locals n = s_locals m /\
  Permutation (s_defs n) (s_defs m).
Lemma equations_sym : forall n m, same_equations n m -> same_equations m n.
Proof. intros n m (A & B & C & D & E). repeat split; auto using Permutation_sym. Qed.

Lemma same_solvable : forall n m, same_equations n m -> solvable n -> solvable m.
Proof.
  intros n m (_ & Ei & Eo & El & P) (N & I & O & W). unfold solvable, node_vars in *. rewrite <- Ei, <- Eo, <- El.
  assert (Q : Permutation (flat_map assigns (s_defs n)) (flat_map assigns (s_defs m))) by (apply Permutation_flat_map; auto).
  split; [eapply Permutation_NoDup; eauto|]. split; [intros x J K; apply (I x J); eapply Permutation_in; [apply Permutation_sym, Q|auto]|].
  split; [intros x J; eapply Permutation_in; [exact Q|auto]|].
  apply Permutation_nth_error in P. destruct P as (_ & f & _ & E).
  assert (D : forall i j, waits_for m i j -> waits_for n (f i) (f j)).
  { intros i j (a & b & x & Ha & Hb & Hx). exists a, b, x. rewrite <- !E. unfold node_vars in *. rewrite Ei, Eo, El. auto. }
  assert (Dp : forall i j, waits_plus m i j -> waits_plus n (f i) (f j)).
  { induction 1; [apply wp_one; auto|eapply wp_more; eauto]. }
  intros i H. apply (W (f i)). auto.
Qed.

Definition same_source (a b : sattrdecl) : Prop := fst a = fst b /\ same_decl a b.
Lemma same_source_cases : forall a b, same_source a b ->
  a = b \/ exists at_ n m, a = (at_, XNode n) /\ b = (at_, XNode m) /\ same_equations n m.
Proof.
  intros [at1 x] [at2 y] [E S]. cbn [fst snd] in *. subst at2. unfold same_decl in S. cbn [snd] in S. destruct x, y; try discriminate S; try (left; congruence).
  right. do 3 eexists. split; [reflexivity|]. split; [reflexivity|exact S].
Qed.

Lemma same_context : forall p q, Forall2 same_source p q -> flat_map constant_of p = flat_map constant_of q /\ flat_map interface_of p = flat_map interface_of q /\
  map (fun a => introduces (snd a)) p = map (fun a => introduces (snd a)) q.
Proof.
  induction 1 as [|a b p q S F (A & B & C)]; auto. cbn [flat_map map]. rewrite A, B, C.
  apply same_source_cases in S. destruct S as [->|(at_ & n & m & -> & -> & (En & Ei & Eo & El & P))]; auto.
  unfold constant_of, interface_of, introduces. cbn [fst snd]. rewrite En, Ei, Eo. auto.
Qed.
Lemma same_expressions : forall n m, same_equations n m -> Permutation (expressions (XNode n)) (expressions (XNode m)).
Proof. intros n m (_ & _ & _ & _ & P). cbn. apply Permutation_map. auto. Qed.
Lemma same_mentions : forall a b, same_source a b -> forall e, mentions (snd a) e <-> mentions (snd b) e.
Proof.
  assert (H : forall n m e, same_equations n m -> mentions (XNode n) e -> mentions (XNode m) e).
  { intros n m x S (e & J & K). exists e. split; [eapply Permutation_in; [apply (same_expressions n m); auto|auto]|].
    destruct S as (_ & Ei & Eo & El & _). unfold node_vars in *. rewrite <- Ei, <- Eo, <- El. auto. }
  intros a b S e. apply same_source_cases in S. destruct S as [->|(at_ & n & m & -> & -> & S)]; [reflexivity|]. cbn [snd].
  split; apply H; auto using equations_sym.
Qed.
Lemma same_follows : forall p q, Forall2 same_source p q -> forall i j, follows q i j -> follows p i j.
Proof.
  intros p q F i j (a & b & Ha & Hb & M).
  assert (X : forall i b, nth_error q i = Some b -> exists a, nth_error p i = Some a /\ same_source a b).
  { clear - F. induction F as [|a b p q S F IH]; intros [|i] c J; cbn in *; try discriminate; eauto. inversion J; subst. eauto. }
  apply X in Ha. apply X in Hb. destruct Ha as (a' & Ha & Sa), Hb as (b' & Hb & Sb). exists a', b'. split; auto. split; auto.
  apply (same_mentions _ _ Sa). apply same_source_cases in Sb. destruct Sb as [->|(at_ & n & m & -> & -> & (E & _))]; auto.
  cbn [snd introduces] in *. rewrite E. auto.
Qed.
Lemma same_follows_plus : forall p q, Forall2 same_source p q -> forall i j, follows_plus q i j -> follows_plus p i j.
Proof. intros p q F i j H. induction H; [apply fp_one|eapply fp_more; eauto]; eapply same_follows; eauto. Qed.

Lemma same_ok : forall p q a b, flat_map constant_of p = flat_map constant_of q -> flat_map interface_of p = flat_map interface_of q ->
  same_source a b -> decl_ok p a -> decl_ok q b.
Proof.
  intros p q a b Ec Ei S K. apply same_source_cases in S. unfold decl_ok, node_ok in *. rewrite <- Ec, <- Ei.
  destruct S as [<-|(at_ & n & m & -> & -> & S)]; [exact K|]. cbn [fst snd] in *. destruct K as (Ao & Sl & K). split; [|split].
  - destruct Ao as (es & M & C & Ap). exists es. repeat split; auto. apply Forall_forall. constructor.
  - intros e z J. apply Sl. eapply Permutation_in; [apply Permutation_sym, (same_expressions n m); auto|auto].
  - destruct K as (K1 & K2 & K3 & K4 & K5 & K6). pose proof (same_solvable _ _ S K5) as So. destruct S as (_ & Si & Sou & Slo & P).
    unfold declared_pace, node_vars in *. rewrite <- Si, <- Sou, <- Slo. do 5 (split; [assumption|]).
    intros i J. apply K6. eapply Permutation_in; [apply Permutation_sym, P|auto].
Qed.

Lemma same_well_formed : forall p q, Forall2 same_source p q -> well_formed p -> well_formed q.
Proof.
  intros p q F (Ok & N & Ac). destruct (same_context _ _ F) as (Ec & Ei & En). split; [|split].
  - intros b J. destruct (forall2_in_r _ _ _ F _ J) as (a & Ja & S). eapply same_ok; eauto.
  - rewrite <- En. auto.
  - intros i H. apply (Ac i). eapply same_follows_plus; eauto.
Qed.

Theorem reordered_accepted : forall p q l, rewritten p q ->
  result (pipeline p) = Some l -> exists m, result (pipeline q) = Some m.
Proof.
  intros p q l (p' & P & F) H. destruct (declarations_permuted _ _ _ P H) as (l' & H' & _).
  apply accepted_well_formed. eapply same_well_formed; [exact F|]. apply accepted_well_formed. eauto.
Qed.
