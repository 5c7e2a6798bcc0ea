(** Types of calls. *)
From Coq Require Import String List ZArith Bool Arith Lia.
From Verif Require Import Model.Base Model.Scalar Model.Ast Model.Errors Model.Interp Model.Options Model.Typecheck
  Spec.TypeSpec Proofs.OutBasics Proofs.Unify Proofs.TypeInfer.
Import ListNotations.

Lemma result_bind : forall {A B} (x : out A) (f : A -> out B) a, result x = Some a -> result (obind x f) = result (f a).
Proof. intros A B [r es ws|] f a H; cbn in H; [|discriminate]. subst. cbn. destruct (f a); auto. Qed.

Lemma call_types : forall ctx d id args s f actual s1 t,
  nth_error (c_blocks ctx) id = Some f -> NoDup (g_params f) ->
  (forall x, In (BOther x) (g_ins f) <-> In x (g_params f)) ->
  (forall x, In (BOther x) (g_outs f) -> In x (g_params f)) ->
  result (tc ctx args s) = Some (actual, s1) ->
  ((exists s', result (tc ctx (ESub d id args) s) = Some (t, s')) <->
   (exists sigma, actual = tuple_ty (map (inst_base sigma) (g_ins f)) /\ t = tuple_ty (map (inst_base sigma) (g_outs f)))).
Proof.
  intros ctx d id args s f actual s1 t E N Hi Ho Ta. cbn [tc]. rewrite E. 
  split.
  - intros (s' & H). apply obind_some in H. destruct H as ((a & s2) & Ta' & H). rewrite Ta in Ta'. injection Ta' as <- <-.
    apply obind_some in H. destruct H as (u & Eu & H). apply obind_some in H. destruct H as (u' & Eu' & H).
    destruct u' as [|m]; [discriminate|]. apply obind_some in H. destruct H as (l & El & H). cbn in H. injection H as <- <-.
    destruct (instantiate_sound _ _ (g_outs f) _ _ _ _ Eu _ Eu' eq_refl El) as (A & B & _).
    exists (subst_of (g_params f) l). change tuple_ty with flat. auto.
  - intros (sigma & -> & ->). rewrite (result_bind _ _ _ Ta). rewrite (from_generics_ok _ N). cbn.
    destruct (instantiate_complete (g_params f) (g_ins f) (g_outs f) sigma N Hi Ho) as (m & l & A & B & C).
    change tuple_ty with flat.
    destruct (identical (UMapping (blank (g_params f))) (flat (g_ins f)) (flat (map (inst_base sigma) (g_ins f)))); cbn in A; [|discriminate].
    subst. cbn. destruct (instances m); cbn in B; [|discriminate]. subst. cbn. rewrite C. eauto.
Qed.

Lemma call_instance : forall ctx d id args s f t s', nth_error (c_blocks ctx) id = Some f ->
  result (tc ctx (ESub d id args) s) = Some (t, s') ->
  exists l, In (id, l) (y_gens s') /\ length l = length (g_params f) /\
    let sigma x := match lookup x (combine (g_params f) l) with Some b => b | None => BOther x end in
    (exists s1, result (tc ctx args s) = Some (tuple_ty (map (inst_base sigma) (g_ins f)), s1)) /\
    t = tuple_ty (map (inst_base sigma) (g_outs f)).
Proof.
  intros ctx d id args s f t s' E H. cbn [tc] in H. rewrite E in H.
  apply obind_some in H. destruct H as ((a & s2) & Ta' & H).
  apply obind_some in H. destruct H as (u & Eu & H). apply obind_some in H. destruct H as (u' & Eu' & H).
  destruct u' as [|m]; [discriminate|]. apply obind_some in H. destruct H as (l & El & H). cbn in H. injection H as <- <-.
  destruct (instantiate_sound _ _ (g_outs f) _ _ _ _ Eu _ Eu' eq_refl El) as (A & B & C).
  exists l. cbn. split; auto. split; auto.
  assert (S : forall b, inst_base (fun x => match lookup x (combine (g_params f) l) with Some b => b | None => BOther x end) b
                      = inst_base (subst_of (g_params f) l) b).
  { intros [| | |x]; auto. }
  rewrite (map_ext _ _ S (g_ins f)), (map_ext _ _ S (g_outs f)). change tuple_ty with flat. rewrite <- A. eauto.
Qed.

Lemma each_some : forall {A} (f : A -> out unit) l u, result (each f l) = Some u -> forall a, In a l -> result (f a) = Some tt.
Proof.
  induction l as [|a l IH]; intros u H b I; [destruct I|]. cbn [each] in H. apply obind_some in H. destruct H as ([] & E & H).
  destruct I as [<-|I]; eauto.
Qed.

(** Signatures of accepted nodes. *)
Lemma signature_vars : forall gl fn o nd r, result (tc_node gl fn o nd) = Some r ->
  (forall x, In (BOther x) (map v_base (n_inputs nd)) <-> In x (o_generics o)) /\
  (forall x, In (BOther x) (map v_base (n_outputs nd)) -> In x (o_generics o)).
Proof.
  intros gl fn o nd r H. unfold tc_node in H.
  apply obind_some in H. destruct H as (u1 & X1 & H). apply obind_some in H. destruct H as (u2 & X2 & H). clear H.
  unfold tc_generics in X2. apply obind_some in X2. destruct X2 as (u3 & X3 & X2). apply obind_some in X2. destruct X2 as (u4 & X4 & X2).
  assert (Dc : forall x v, v_base v = BOther x -> result (tc_declared (o_generics o) v) = Some tt -> In x (o_generics o)).
  { intros x v Ev Dv. unfold tc_declared in Dv. rewrite Ev in Dv. destruct (existsb (String.eqb x) (o_generics o)) eqn:Ex; [|discriminate].
    apply existsb_exists in Ex. destruct Ex as (y & I & Ey). apply String.eqb_eq in Ey. subst. auto. }
  split; [intros x; split|].
  - intros I. apply in_map_iff in I. destruct I as (v & Ev & I). eapply Dc; eauto. exact (each_some _ _ _ X3 _ I).
  - intros I. pose proof (each_some _ _ _ X2 _ I) as U. cbv beta in U. destruct (is_used (n_inputs nd) x) eqn:Ex; [|discriminate].
    unfold is_used in Ex. apply existsb_exists in Ex. destruct Ex as (v & Iv & Ev). apply base_eqb_spec in Ev. rewrite <- Ev. apply in_map. auto.
  - intros x I. apply in_map_iff in I. destruct I as (v & Ev & I). eapply Dc; eauto. apply (each_some _ _ _ X4). apply in_app_iff. auto.
Qed.

(** Inference is sound for the rules of [TypeSpec]. *)
Lemma tc_sound : forall ctx G,
  (forall x b, lookup x (c_vars ctx) = Some b -> x_vars G x = Some b) ->
  (forall x b, lookup x (c_global ctx) = Some b -> x_globals G x = Some b) ->
  forall e s t s', result (tc ctx e s) = Some (t, s') ->
  (forall id t, In (id, t) (y_regs s') -> x_regs G id = Some t) ->
  (forall id l f, In (id, l) (y_gens s') -> nth_error (c_blocks ctx) id = Some f ->
     let sigma x := match lookup x (combine (g_params f) l) with Some b => b | None => BOther x end in
     x_blocks G id = Some (tuple_ty (map (inst_base sigma) (g_ins f)), tuple_ty (map (inst_base sigma) (g_outs f)))) ->
  has_type G e t.
Proof.
  intros ctx G Hv Hg e s t s' E R B. destruct (tc_infers ctx G Hv Hg e s t s' E) as [_ K]. apply K. split; auto.
Qed.
