(** Reordering the declarations and equations of a source program. *)
From Coq Require Import String List ZArith Bool Arith Lia Permutation.
From Verif Require Import Model.Base Model.Scalar Model.Value Model.Ast Model.Errors Model.Interp Model.Options Model.Surface
  Model.Pipeline Spec.StepSpec Spec.SurfaceSem Spec.ProgramSem Spec.OrderSpec Proofs.PipelineProofs Proofs.ProgramProofs Proofs.Unique.
Import ListNotations.

Definition same_node (n m : snode) : Prop :=
  s_name n = s_name m /\ s_inputs n = s_inputs m /\ s_outputs n = s_outputs m /\ s_locals n = s_locals m /\
  Permutation (s_defs n) (s_defs m).

Lemma reordered_nodes : forall p q, reordered p q -> forall n, In n (source_nodes p) -> exists m, In m (source_nodes q) /\ same_node n m.
Proof.
  intros p q (p' & P & F) n I. destruct (source_node_in _ _ I) as (a & Ia). apply (Permutation_in _ P) in Ia.
  destruct (forall2_in_l _ _ _ F _ Ia) as ((b, x) & Ib & S). red in S. simpl in S. destruct x as [| m | |]; try discriminate.
  exists m. split; [|exact S]. unfold source_nodes. apply in_flat_map. exists (b, XNode m). simpl. auto.
Qed.

Lemma denotes_reordered : forall mode glob p q, reordered p q -> forall n f ins outs,
  denotes mode glob (source_nodes p) n f ins outs -> denotes mode glob (source_nodes q) n f ins outs.
Proof.
  intros mode glob p q R. induction n as [|n IH]; intros f ins outs H; [destruct H|]. cbn [denotes] in *.
  destruct H as (sn & po & I & E & M & ->). destruct (reordered_nodes _ _ R _ I) as (sm & Im & En & Ei & Eo & El & P).
  exists sm, po. split; auto. split; [congruence|]. rewrite <- Eo. split; auto.
  eapply (node_meaning_mono mode glob _ (fun g args v => exists os, denotes mode glob (source_nodes q) n g args (os ++ [v]))
            _ (no_input (source_nodes q))) in M.
  - destruct M as (L & rho & M). split; auto. exists rho. intros T v o X Y. destruct (M _ _ _ X Y) as (A & B & C).
    unfold node_vars in *. rewrite <- Ei, <- Eo, <- El. split; auto. split; auto. intros i J. apply B.
    eapply Permutation_in; [apply Permutation_sym; exact P|exact J].
  - intros g args v (os & D). eauto.
  - intros g v (s & Is & Es & ->). destruct (reordered_nodes _ _ R _ Is) as (s' & Is' & En' & Ei' & Eo' & El' & P').
    exists s'. split; auto. split; congruence.
Qed.

Lemma means_reordered : forall mode glob p q, reordered p q -> forall f ins outs,
  means mode glob (source_nodes p) f ins outs -> means mode glob (source_nodes q) f ins outs.
Proof. intros mode glob p q R f ins outs (n & D). exists n. eapply denotes_reordered; eauto. Qed.

(** Two accepted default-mode programs that only differ by the order of their
    equations give the same outputs. *)
Theorem reordered_runs : forall mode glob p q l m f i j ins outs i' outs' j',
  reordered p q ->
  result (pipeline p) = Some l -> result (pipeline q) = Some m ->
  (forall a sn, In (a, XNode sn) p -> ~ In "universal_pre"%string (map a_action a)) ->
  (forall a sn, In (a, XNode sn) q -> ~ In "universal_pre"%string (map a_action a)) ->
  init_inst (nodes_of l) f = Ok i -> run mode glob (nodes_of l) f i ins = Ok (outs, i') ->
  init_inst (nodes_of m) f = Ok j -> run mode glob (nodes_of m) f j ins = Ok (outs', j') ->
  outs = outs'.
Proof.
  intros mode glob p q l m f i j ins outs i' outs' j' R Hp Hq Dp Dq Ip Rp Iq Rq.
  pose proof (program_sound _ _ _ _ _ _ _ _ _ Hp Dp Ip Rp) as A.
  pose proof (program_sound _ _ _ _ _ _ _ _ _ Hq Dq Iq Rq) as B.
  eapply (means_unique _ _ _ _ Hq Dq); [|exact B]. eapply means_reordered; eauto.
Qed.
