(** Replacing the values of generic types; where they come from. *)
From Coq Require Import String List ZArith Bool Arith Lia.
From Verif Require Import Model.Base Model.Scalar Model.Value Model.Ast Model.Errors Model.Interp Model.Surface Model.Pipeline Model.Extern
  Spec.StepSpec Spec.ProgramSem Spec.TypeSpec Spec.SafetySpec Spec.GenericSpec
  Proofs.OutBasics Proofs.Parametric Proofs.ParametricProg.
Import ListNotations.

Lemma tuple_inj : forall a b, length a = length b -> tuple_val (map VS a) = tuple_val (map VS b) -> a = b.
Proof.
  assert (M : forall a b, map VS a = map VS b -> a = b).
  { induction a as [|x a IH]; intros [|y b] E; cbn in E; try discriminate; auto. inversion E. f_equal; auto. }
  intros [|x [|x' a]] [|y [|y' b]] L E; cbn in *; try discriminate; auto; inversion E; subst; auto. f_equal. f_equal. auto.
Qed.

Definition image (f : ident -> scalar -> scalar) : ident -> scalar -> scalar -> Prop := fun x s s' => s' = f x s.
Lemma stands_image : forall f b n m, nstands (image f) b n m <-> m = replace f b n.
Proof.
  intros f b [s|] [s'|]; cbn; destruct b; cbn; unfold image; split; intros H; try discriminate; try tauto; try congruence; auto.
Qed.
Lemma all_image : forall f bs ns, length ns = length bs -> all_stand (image f) bs ns (map (fun p => replace f (fst p) (snd p)) (combine bs ns)).
Proof.
  induction bs as [|b bs IH]; intros [|n ns] L; try discriminate; cbn; constructor; auto. apply stands_image. auto.
Qed.
Lemma image_all : forall f bs ns ms, all_stand (image f) bs ns ms -> map VS ms = replace_all f bs (map VS ns).
Proof. induction 1 as [|b bs n ns m ms N A IH]; cbn; auto. apply stands_image in N. subst. rewrite IH. auto. Qed.
Lemma row_image : forall f bs v w, row_stands (image f) bs v w -> w = replace_row f bs v.
Proof.
  intros f bs v w H. destruct bs as [|b bs]; cbn in H; [destruct H as (n & -> & ->); auto|]. destruct H as (ns & ms & -> & -> & A).
  pose proof (image_all _ _ _ _ A) as E. inversion A as [|? ? n ns' m ms' N A']; subst. inversion A' as [|b' bs' n' ns'' m' ms'' N' A'']; subst.
  - cbn in *. congruence.
  - cbn [map tuple_val replace_row] in *. rewrite E. auto.
Qed.
Lemma image_row : forall f bs v, row_of bs v -> row_stands (image f) bs v (replace_row f bs v).
Proof.
  intros f bs v H. destruct bs as [|b bs]; cbn in H.
  - destruct H as (n & ->). exists n. auto.
  - destruct H as (ns & -> & L). assert (K : row_stands (image f) (b :: bs) (tuple_val (map VS ns)) (tuple_val (map VS (map (fun p => replace f (fst p) (snd p)) (combine (b :: bs) ns))))).
    { exists ns. eexists. repeat split. apply all_image. auto. }
    rewrite <- (row_image _ _ _ _ K). exact K.
Qed.

Theorem generic_replace : forall mode glob ext p l, result (pipeline p) = Some l -> constants_ok p glob -> externs_blind p ext ->
  forall sn, In sn (source_nodes p) -> forall f ins, Forall (row_of (bases (s_inputs sn))) ins ->
  alike (fun outs outs' => outs' = map (replace_row f (bases (s_outputs sn))) outs)
    (xoutputs mode glob ext (items_of l) (s_name sn) ins) (xoutputs mode glob ext (items_of l) (s_name sn) (map (replace_row f (bases (s_inputs sn))) ins)).
Proof.
  intros mode glob ext p l H Co Xo sn Is f ins F.
  eapply alike_weaken; [eapply (generic_blind mode glob ext p l H Co Xo sn Is (image f))|].
  - induction F; cbn; constructor; auto using image_row.
  - intros a b A. cbn in A. induction A; cbn; auto. f_equal; auto. apply row_image. auto.
Qed.

(** ** Origins *)
Lemma xrun_prefix : forall mode glob ext P f ins i os j n, xrun mode glob ext P f i ins = Ok (os, j) ->
  exists j', xrun mode glob ext P f i (firstn n ins) = Ok (firstn n os, j').
Proof.
  intros mode glob ext P f. induction ins as [|v ins IH]; intros i os j n H; cbn [xrun] in H.
  - inversion H; subst. destruct n; cbn; eauto.
  - destruct (xstep mode glob ext P f i v) as [[o i1]|] eqn:E; [|discriminate]. cbn [bind] in H.
    destruct (xrun mode glob ext P f i1 ins) as [[os1 i2]|] eqn:E1; [|discriminate]. cbn in H. inversion H; subst.
    destruct n; cbn; eauto. rewrite E. cbn [bind]. destruct (IH _ _ _ n E1) as (j' & ->). cbn. eauto.
Qed.

Theorem generic_origin : forall mode glob ext p l, result (pipeline p) = Some l -> constants_ok p glob -> externs_blind p ext ->
  forall sn, In sn (source_nodes p) -> forall ins, Forall (row_of (bases (s_inputs sn))) ins ->
  forall outs, xoutputs mode glob ext (items_of l) (s_name sn) ins = Ok outs ->
  forall T o x s, nth_error outs T = Some o -> carries (bases (s_outputs sn)) o x s ->
  exists T' i, T' <= T /\ nth_error ins T' = Some i /\ carries (bases (s_inputs sn)) i x s.
Proof.
  intros mode glob ext p l H Co Xo sn Is ins Fr outs E T o x s Eo Ca.
  set (R := fun x s s' => s = s' /\ exists T' i, T' <= T /\ nth_error ins T' = Some i /\ carries (bases (s_inputs sn)) i x s).
  unfold xoutputs in E. destruct (xinit (items_of l) (s_name sn)) as [i|] eqn:Ei; [|discriminate]. cbn [bind] in E.
  destruct (xrun mode glob ext (items_of l) (s_name sn) i ins) as [[os j]|] eqn:Er; [|discriminate]. cbn in E. inversion E; subst os.
  destruct (xrun_prefix _ _ _ _ _ _ _ _ _ (S T) Er) as (j' & Ep).
  assert (K : Forall2 (row_stands R (bases (s_inputs sn))) (firstn (S T) ins) (firstn (S T) ins)).
  { assert (Q : forall v, In v (firstn (S T) ins) -> row_stands R (bases (s_inputs sn)) v v).
    { intros v J. apply In_nth_error in J. destruct J as (k & Ek).
      assert (Lt : k < S T). { assert (k < length (firstn (S T) ins)) by (apply nth_error_Some; congruence). rewrite firstn_length in *. lia. }
      assert (Ek' : nth_error ins k = Some v).
      { rewrite <- Ek. clear - Lt. revert k ins Lt. generalize (S T). induction n; intros k ins Lt; [lia|]. destruct ins; [destruct k; auto|]. destruct k; cbn; auto. apply IHn. lia. }
      rewrite Forall_forall in Fr. pose proof (Fr _ (nth_error_In _ _ Ek')) as Rv. unfold row_of in Rv. unfold row_stands.
      remember (bases (s_inputs sn)) as bs. destruct bs as [|b bs]; [destruct Rv as (n & ->); eauto|]. destruct Rv as (ns & -> & L).
      exists ns, ns. repeat split; auto.
      assert (Rx : forall k' x s, nth_error (b :: bs) k' = Some (BOther x) -> nth_error ns k' = Some (Defined s) -> R x s s).
      { intros k' y u A B. split; auto. exists k, (tuple_val (map VS ns)). split; [lia|]. split; auto. exists ns, k'. auto. }
      clearbody R. clear - L Rx. revert ns L Rx. generalize (b :: bs). clear b bs. induction l as [|b l IH]; intros [|n ns] L Rx; try discriminate; constructor.
      - destruct n as [u|]; cbn; auto. destruct b; cbn; auto. apply (Rx 0); auto.
      - apply IH; auto. intros k' x s A B. apply (Rx (S k')); auto. }
    revert Q. generalize (firstn (S T) ins). clear. induction l; intros Q; constructor; [apply Q; cbn; auto|apply IHl; intros; apply Q; cbn; auto]. }
  pose proof (generic_blind mode glob ext p l H Co Xo sn Is R _ _ K) as G. unfold xoutputs in G. rewrite Ei in G. cbn [bind] in G. rewrite Ep in G. cbn in G.
  assert (Eo' : nth_error (firstn (S T) outs) T = Some o).
  { rewrite <- Eo. clear. revert outs. induction T; intros [|a outs]; cbn; auto. apply (IHT outs). }
  cbn in Eo'. pose proof (forall2_nth_opt _ _ _ T G) as N. cbn in N. rewrite Eo' in N. cbn in N.
  destruct Ca as (ns & k & -> & L & Eb & En). unfold row_stands in N. remember (bases (s_outputs sn)) as bs. destruct bs as [|b bs]; [destruct k; discriminate|].
  destruct N as (ns1 & ms1 & E1 & E2 & A). destruct (all_length _ _ _ _ A) as [L1 L2].
  assert (ns1 = ns) by (apply tuple_inj; congruence). assert (ms1 = ns) by (apply tuple_inj; congruence). subst ns1 ms1.
  assert (Rx : forall cs ns ms, all_stand R cs ns ms -> forall k, nth_error cs k = Some (BOther x) -> nth_error ns k = Some (Defined s) -> exists s', R x s s').
  { clear. induction 1 as [|c cs n ns m ms N A IH]; intros [|k] Eb En; cbn in *; try discriminate; eauto.
    inversion Eb; inversion En; subst. destruct m; cbn in N; [eauto|tauto]. }
  destruct (Rx _ _ _ A _ Eb En) as (s' & _ & W). exact W.
Qed.
