(** The depth analysis accepts exactly the expressions that do not look at
    their variables before the first instant. *)
From Coq Require Import String List ZArith Bool Arith Lia Permutation.
From Verif Require Import Model.Base Model.Scalar Model.Value Model.Ast Model.Errors Model.Options Model.Interp Model.Surface Model.Translate
  Model.Graph Model.Causality Model.Typecheck Model.Clockcheck Model.Positivity Model.Pipeline
  Spec.ProgramSem Spec.ClockSpec Spec.SafetySpec Proofs.AstInd Proofs.OutBasics Proofs.TranslateSem Proofs.TranslateStruct Proofs.NodeWf
  Proofs.PipelineProofs Proofs.ProgramProofs Proofs.Unique Proofs.Depths Proofs.DepthPipeline.
Import ListNotations.

Definition fits (e : expr) (cur : nat) (P : Prop) : Prop :=
  forall m, (exists m', result (pos e cur m) = Some m') <-> P.

Lemma fits_same : forall e cur P Q, fits e cur P -> (P <-> Q) -> fits e cur Q.
Proof. unfold fits. intros e cur P Q H I m. rewrite <- I. apply H. Qed.

Lemma fits_seq : forall (f g : depths -> out depths) P Q,
  (forall m, (exists m', result (f m) = Some m') <-> P) -> (forall m, (exists m', result (g m) = Some m') <-> Q) ->
  forall m, (exists m', result (m <~ f m;; g m) = Some m') <-> (P /\ Q).
Proof.
  intros f g P Q A B m. rewrite result_obind. split.
  - intros (m' & H). destruct (result (f m)) as [m1|] eqn:E; [|discriminate]. split; [apply (A m); eauto|apply (B m1); eauto].
  - intros [p q]. destruct (proj2 (A m) p) as (m1 & ->). destruct (proj2 (B m1) q) as (m2 & ->). eauto.
Qed.

Lemma pos_tuple : forall l cur m, pos (ETuple l) cur m = poss l cur m.
Proof.
  intros l cur. cbn [pos]. induction l as [|e l IH]; intros m; [reflexivity|]. cbn [poss].
  destruct (pos e cur m) as [[m1|] es ws|]; cbn [obind]; auto. rewrite IH. reflexivity.
Qed.

Lemma poss_fits : forall l cur Ps, Forall2 (fun e P => fits e cur P) l Ps ->
  forall m, (exists m', result (poss l cur m) = Some m') <-> Forall (fun P => P) Ps.
Proof.
  induction 1 as [|e P l Ps H _ IH]; intros m; cbn [poss].
  - split; [constructor|]. intros _. eexists. reflexivity.
  - rewrite (fits_seq (pos e cur) (poss l cur) P (Forall (fun P => P) Ps) H IH m). split; [intros []; constructor; auto|inversion 1; auto].
Qed.

Section Fit.
  Variable locals : list ident.
  Notation rd := (ready false locals).

  Definition fitting (e : sexpr) : Prop := forall d s e' s', result (tr false locals e d s) = Some (e', s') ->
    forall cur, fits e' cur (rd (Z.of_nat cur - Z.of_nat d) e).

  Lemma all_of_iff : forall {A} (P : A -> Prop) l, all_of P l <-> Forall P l.
  Proof. induction l as [|a l IH]; cbn; [split; auto|]. rewrite IH. split; [intros []; constructor; auto|inversion 1; auto]. Qed.

  Lemma elems_fit : forall l, Forall fitting l -> forall d s es s', result (tr_elems (tr false locals) l d s) = Some (es, s') ->
    forall cur, Forall2 (fun e' e => fits e' cur (rd (Z.of_nat cur - Z.of_nat d) e)) es l.
  Proof.
    induction 1 as [|e l H _ IH]; intros d s es s' E cur; cbn in E; inv_out; constructor; eauto.
  Qed.

  Lemma fits_tuple : forall cur d es l, Forall2 (fun e' e => fits e' cur (rd (Z.of_nat cur - Z.of_nat d) e)) es l ->
    fits (ETuple es) cur (all_of (rd (Z.of_nat cur - Z.of_nat d)) l).
  Proof.
    intros cur d es l H m. rewrite pos_tuple, all_of_iff.
    rewrite (poss_fits es cur (map (rd (Z.of_nat cur - Z.of_nat d)) l)).
    - rewrite Forall_map. tauto.
    - clear m. induction H; cbn; constructor; auto.
  Qed.

  Lemma fits_paren : forall cur d es l b, Forall2 (fun e' e => fits e' cur (rd (Z.of_nat cur - Z.of_nat d) e)) es l ->
    fits (paren es b) cur (all_of (rd (Z.of_nat cur - Z.of_nat d)) l).
  Proof.
    intros cur d es l b H. pose proof (fits_tuple _ _ _ _ H) as T. unfold paren. destruct es as [|e [|e' es]]; auto. destruct b; auto.
    inversion H as [|? a ? ? H1 H2]; subst. inversion H2; subst. intros m. cbn [pos all_of]. rewrite (H1 m). tauto.
  Qed.

  Lemma bins_fit : forall l, Forall (fun p => fitting (snd p)) l -> forall acc P d s r s' cur, fits acc cur P ->
    result (tr_left (tr false locals) EBin acc l d s) = Some (r, s') ->
    fits r cur (P /\ all_of (fun p => rd (Z.of_nat cur - Z.of_nat d) (snd p)) l).
  Proof.
    induction 1 as [|[op e] l H _ IH]; intros acc P d s r s' cur A E; cbn in E; inv_out.
    - eapply fits_same; [exact A|]. cbn. tauto.
    - eapply fits_same; [eapply (IH _ (P /\ rd (Z.of_nat cur - Z.of_nat d) e)); [|exact E]|cbn; tauto].
      intros m. cbn [pos]. apply (fits_seq (pos acc cur) (pos _ cur)); auto. eapply H; eauto.
  Qed.
  Lemma clocks_fit : forall l, Forall (fun p => fitting (snd p)) l -> forall acc P d s r s' cur, fits acc cur P ->
    result (tr_left (tr false locals) EClock acc l d s) = Some (r, s') ->
    fits r cur (P /\ all_of (fun p => rd (Z.of_nat cur - Z.of_nat d) (snd p)) l).
  Proof.
    induction 1 as [|[op e] l H _ IH]; intros acc P d s r s' cur A E; cbn in E; inv_out.
    - eapply fits_same; [exact A|]. cbn. tauto.
    - eapply fits_same; [eapply (IH _ (rd (Z.of_nat cur - Z.of_nat d) e /\ P)); [|exact E]|cbn; tauto].
      intros m. cbn [pos]. apply (fits_seq (pos _ cur) (pos acc cur)); auto. eapply H; eauto.
  Qed.

  (** A chain, from its operand number [i]. *)
  Lemma right_fit : forall (w : nat) bump, (forall d i, bump d i = d + w * i) -> forall l, Forall fitting l -> forall i d s o s',
    result (tr_right (tr false locals) bump later i l d s) = Some (o, s') ->
    match l with
    | [] => o = None
    | e :: l => exists r, o = Some r /\ forall cur, fits r cur (rd (Z.of_nat cur - Z.of_nat (d + w * i)) e /\
        all_from (fun j e => rd (j - Z.of_nat w * j) e) (Z.of_nat i + 1) l)
    end.
  Proof.
    intros w bump B. induction 1 as [|e l H _ IH]; intros i d s o s' E; cbn in E; inv_out; auto. rewrite B in E1.
    specialize (IH _ _ _ _ _ E0). destruct l as [|a l].
    - subst o0. cbn in E. inv_out. eexists. split; [reflexivity|]. intros cur. eapply fits_same; [eapply H; eauto|]. cbn. tauto.
    - destruct IH as (r & -> & Hr). cbn in E. inv_out. eexists. split; [reflexivity|]. intros cur m. cbn [pos all_from].
      apply (fits_seq (pos _ cur) (pos r (d + i + 1))); [eapply H; eauto|].
      intros m'. rewrite (Hr (d + i + 1) m').
      replace (Z.of_nat (d + i + 1) - Z.of_nat (d + w * S i))%Z with (Z.of_nat i + 1 - Z.of_nat w * (Z.of_nat i + 1))%Z by lia.
      replace (Z.of_nat (S i)) with (Z.of_nat i + 1)%Z by lia. tauto.
  Qed.

  Lemma all_from_ext : forall {A} (P Q : Z -> A -> Prop) l i, (forall j a, P j a <-> Q j a) -> (all_from P i l <-> all_from Q i l).
  Proof. intros A P Q l. induction l as [|a l IH]; intros i H; cbn; [tauto|]. rewrite (H i a), (IH (i + 1)%Z H). tauto. Qed.
  Lemma all_from_const : forall {A} (P : A -> Prop) l i, all_from (fun _ => P) i l <-> all_of P l.
  Proof. induction l as [|a l IH]; intros i; cbn; [tauto|]. rewrite IH. tauto. Qed.

  Lemma chain_fit : forall w bump, (forall d i, bump d i = d + w * i) -> forall e l, fitting e -> Forall fitting l -> forall d s r s',
    result ('(acc, s) <~ tr_right (tr false locals) bump later 1 l d s;;
            '(e, s) <~ tr false locals e (bump d 0) s;;
            match acc with
            | None => done (e, s)
            | Some after => done (later d 0 e after s)
            end) = Some (r, s') ->
    forall cur, fits r cur (rd (Z.of_nat cur - Z.of_nat d) e /\ all_from (fun j e => rd (j - Z.of_nat w * j) e) 1 l).
  Proof.
    intros w bump B e l He Hl d s r s' E cur.
    assert (R : result (tr_right (tr false locals) bump later 0 (e :: l) d s) = Some (Some r, s')).
    { cbn [tr_right]. inv_out. rewrite result_obind, E0. rewrite result_obind, E1. destruct o; cbn in *; inv_out; auto. }
    apply (right_fit w bump B) in R; [|constructor; auto]. destruct R as (r' & Er & R). inversion Er; subst.
    eapply fits_same; [apply R|]. rewrite Nat.mul_0_r, Nat.add_0_r. tauto.
  Qed.

  Lemma tr_fit : forall e, fitting e.
  Proof.
    intros e. induction e using sexpr_ind'; intros d s e' s' E cur; cbn [tr] in E.
    - inv_out. intros m. cbn [ready]. destruct l; unfold tr_lit in E0; try destruct (in_i64 _); inv_out; (split; [auto|intros _; eexists; reflexivity]).
    - inv_out. intros m. cbn [ready]. destruct (in_dec string_dec x locals) as [I|I].
      + rewrite (tr_var_local locals) by auto. cbn [pos]. destruct (Nat.leb_spec d cur).
        * split; [intros _ _; lia|intros _; eexists; reflexivity].
        * split; [intros (m' & X); discriminate|intros X; specialize (X I); lia].
      + rewrite (tr_var_global locals) by auto. split; [contradiction|intros _; eexists; reflexivity].
    - inv_out. cbn [ready]. apply fits_paren. eapply elems_fit; eauto.
    - inv_out. cbn [ready]. intros m. cbn [pos]. apply fits_paren. eapply elems_fit; eauto.
    - inv_out. intros m. cbn [pos ready]. eapply IHe; eauto.
    - inv_out. intros m. cbn [pos ready]. eapply IHe; eauto.
    - inv_out. intros m. cbn [pos ready]. rewrite (IHe _ _ _ _ E0 cur m). replace (Z.of_nat cur - Z.of_nat (S d))%Z with (Z.of_nat cur - Z.of_nat d - 1)%Z by lia. tauto.
    - inv_out. intros m. cbn [pos ready]. apply (fits_seq (pos _ cur) (fun m => m0 <~ pos _ cur m;; pos _ cur m0)); [eapply IHe1; eauto|].
      intros m'. apply (fits_seq (pos _ cur) (pos _ cur)); [eapply IHe2; eauto|eapply IHe3; eauto].
    - inv_out. intros m. cbn [pos ready]. apply (fits_seq (pos _ cur) (fun m => m0 <~ pos _ cur m;; pos _ cur m0)); [eapply IHe1; eauto|].
      intros m'. apply (fits_seq (pos _ cur) (pos _ cur)); [eapply IHe2; eauto|eapply IHe3; eauto].
    - inv_out. cbn [ready]. eapply bins_fit; eauto.
    - inv_out. cbn [ready]. destruct l as [|[op a] [|[op' b] l]]; inv_out.
      + eapply fits_same; [eapply IHe; eauto|]. cbn. tauto.
      + cbn [all_of snd]. inversion H; subst. intros m. cbn [pos].
        rewrite (fits_seq (pos _ cur) (pos _ cur) _ _ (IHe _ _ _ _ E0 cur) (H2 _ _ _ _ E1 cur) m). cbn. tauto.
    - inv_out. cbn [ready]. eapply clocks_fit; eauto.
    - cbn [ready]. eapply fits_same.
      + apply (chain_fit 1 (fun d i => d + i) ltac:(intros; cbv beta; lia) e l IHe H d s e' s' E).
      + rewrite (all_from_ext _ (fun _ => rd 0)); [rewrite all_from_const; tauto|].
        intros j a. replace (j - Z.of_nat 1 * j)%Z with 0%Z by lia. tauto.
    - cbn [ready]. eapply fits_same.
      + apply (chain_fit 0 (fun d _ => d) ltac:(intros; cbv beta; lia) e l IHe H d s e' s' E).
      + rewrite (all_from_ext _ rd); [tauto|]. intros j a. replace (j - Z.of_nat 0 * j)%Z with j by lia. tauto.
  Qed.
End Fit.
