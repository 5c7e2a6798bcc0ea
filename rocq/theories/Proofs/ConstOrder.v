(** * The constants of a program do not depend on the order of its declarations. *)
From Coq Require Import String List ZArith Bool Arith Lia Permutation.
From Verif Require Import Model.Base Model.Scalar Model.Value Model.Register Model.Ast Model.Errors Model.Interp Model.Constexpr Model.Options Model.Surface Model.Translate
  Model.Graph Model.Causality Model.Typecheck Model.Clockcheck Model.Positivity Model.Pipeline
  Proofs.OutBasics Proofs.AstInd Proofs.ExternBasics Proofs.CausalityProofs Proofs.PipelineProofs Proofs.TypePipeline Proofs.DeclOrder Proofs.DeclRuns.
Import ListNotations.

Definition entry := (ident * option expr)%type.
Definition cst (d : decl) : list entry :=
  match d with DConst _ x _ e => [(x, Some e)] | DExtConst _ x _ => [(x, None)] | _ => [] end.
Definition cval (ext : ident -> option scalar) (g : list (ident * scalar)) (c : entry) : res scalar :=
  match snd c with Some e => const_eval (fun y => lookup y g) e | None => of_option PUnbound (ext (fst c)) end.
Fixpoint cenv (ext : ident -> option scalar) (l : list entry) (g : list (ident * scalar)) : res (list (ident * scalar)) :=
  match l with
  | [] => Ok g
  | c :: l => s <- cval ext g c;; cenv ext l ((fst c, s) :: g)
  end.
Lemma cenv_const : forall ext l g, const_env ext l g = cenv ext (flat_map cst l) g.
Proof.
  intros ext. induction l as [|[o x t e|o nd|o x t|o x i o'] l IH]; intros g; cbn; auto.
  - unfold cval. cbn. destruct (const_eval _ e); cbn; auto.
  - unfold cval. cbn. destruct (ext x); cbn; auto.
Qed.

Lemma const_eval_ext : forall g g' e, (forall x, In (RGlobal x) (expr_requires e) -> g x = g' x) -> const_eval g e = const_eval g' e.
Proof.
  intros g g'. induction e using expr_ind'; intros X; cbn [const_eval]; cbn [expr_requires] in X; auto;
    try (rewrite X by (cbn; auto); reflexivity);
    repeat match goal with
           | H : _ -> const_eval g ?a = const_eval g' ?a |- _ => rewrite H by (intros; apply X; rewrite ?in_app_iff; auto); clear H
           end; auto.
Qed.

(** Constants only read those before them. *)
Definition csorted (l : list entry) : Prop :=
  forall a x e b, l = a ++ (x, Some e) :: b -> forall y, In (RGlobal y) (expr_requires e) -> ~ In y (map fst ((x, Some e) :: b)).
Definition holds (ext : ident -> option scalar) (g : list (ident * scalar)) (c : entry) : Prop :=
  exists s, cval ext g c = Ok s /\ lookup (fst c) g = Some s.

Lemma cenv_keeps : forall ext l g g', cenv ext l g = Ok g' -> forall y, ~ In y (map fst l) -> lookup y g' = lookup y g.
Proof.
  intros ext. induction l as [|[x e] l IH]; intros g g' H y N; cbn in H; [inversion H; auto|].
  destruct (cval ext g (x, e)) as [s|]; cbn in H; [|discriminate]. rewrite (IH _ _ H) by (intros K; apply N; cbn; auto).
  cbn. destruct (String.eqb_spec y x); auto. exfalso. apply N. cbn. auto.
Qed.
Lemma cval_ext : forall ext g g' c, (forall e y, snd c = Some e -> In (RGlobal y) (expr_requires e) -> lookup y g = lookup y g') -> cval ext g c = cval ext g' c.
Proof. intros ext g g' [x [e|]] H; unfold cval; cbn in *; auto. apply const_eval_ext. intros y J. eapply H; eauto. Qed.
Lemma cenv_holds : forall ext l g g', NoDup (map fst l) -> csorted l -> cenv ext l g = Ok g' -> forall c, In c l -> holds ext g' c.
Proof.
  intros ext. induction l as [|[x e] l IH]; intros g g' D S H c J; [destruct J|]; destruct J as [<-|J]; cbn in H;
    destruct (cval ext g (x, e)) as [s|] eqn:V; cbn in H; try discriminate; inversion D; subst.
  - exists s. split.
    + rewrite <- V. symmetry. apply cval_ext. cbn. intros e0 y -> R. pose proof (S [] x e0 l eq_refl y R) as N. cbn in N.
      rewrite (cenv_keeps _ _ _ _ H) by tauto. cbn. destruct (String.eqb_spec y x); auto. subst. tauto.
    + cbn [fst]. rewrite (cenv_keeps _ _ _ _ H) by auto. cbn. rewrite String.eqb_refl. auto.
  - apply (IH _ _ H3 (fun a x' e' b E => S ((x, e) :: a) x' e' b (f_equal (cons (x, e)) E)) H); auto.
Qed.
(** Whatever holds is what is computed. *)
Lemma holds_cenv : forall ext G l pre g, NoDup (map fst (pre ++ l)) -> csorted (pre ++ l) -> (forall c, In c l -> holds ext G c) ->
  (forall y, In y (map fst pre) -> lookup y g = lookup y G) -> (forall y, ~ In y (map fst (pre ++ l)) -> lookup y g = lookup y G) ->
  exists g', cenv ext l g = Ok g' /\ forall y, lookup y g' = lookup y G.
Proof.
  intros ext G. induction l as [|[x e] l IH]; intros pre g D S H A B.
  - exists g. split; auto. intros y. rewrite app_nil_r in B. destruct (in_dec string_dec y (map fst pre)); auto.
  - destruct (H (x, e)) as (s & V & L); [cbn; auto|]. cbn [cenv fst].
    assert (V' : cval ext g (x, e) = Ok s).
    { rewrite <- V. apply cval_ext. cbn. intros e0 y -> R. pose proof (S pre x e0 l eq_refl y R) as N.
      destruct (in_dec string_dec y (map fst pre)) as [J|J]; auto. apply B. rewrite map_app, in_app_iff. tauto. }
    rewrite V'. cbn [bind].
    assert (E : pre ++ (x, e) :: l = (pre ++ [(x, e)]) ++ l) by (rewrite <- app_assoc; auto).
    apply (IH (pre ++ [(x, e)])).
    + rewrite <- E. auto.
    + rewrite <- E. auto.
    + intros c J. apply H. cbn. auto.
    + intros y J. cbn. destruct (String.eqb_spec y x); subst; auto. rewrite map_app, in_app_iff in J. destruct J as [J|[J|[]]]; auto; cbn in J; congruence.
    + intros y J. rewrite <- E in J. cbn. destruct (String.eqb_spec y x); subst; auto.
Qed.
Lemma cenv_permuted : forall ext l l' g, Permutation l l' -> NoDup (map fst l) -> csorted l -> csorted l' ->
  cenv ext l [] = Ok g -> exists g', cenv ext l' [] = Ok g' /\ forall y, lookup y g' = lookup y g.
Proof.
  intros ext l l' g P D S S' H. apply (holds_cenv ext g l' []); auto.
  - cbn. eapply Permutation_NoDup; [apply Permutation_map, P|]. auto.
  - intros c J. eapply cenv_holds; eauto. eapply Permutation_in; [apply Permutation_sym, P|auto].
  - intros y [].
  - cbn. intros y J. symmetry. rewrite (cenv_keeps _ _ _ _ H); auto. intros K. apply J. eapply Permutation_in; [apply Permutation_map, P|auto].
Qed.

(** ** Accepted programs *)
Lemma cst_provided : forall d x, In x (map fst (cst d)) <-> In (RGlobal x) (decl_provides d).
Proof. intros [o y t e|o nd|o y t|o y i o'] x; cbn; intuition; try congruence; try (left; congruence). Qed.
Lemma csts_provided : forall l x, In x (map fst (flat_map cst l)) <-> In (RGlobal x) (flat_map decl_provides l).
Proof.
  induction l as [|d l IH]; intros x; cbn; [tauto|]. rewrite map_app, !in_app_iff, IH, cst_provided. tauto.
Qed.
Lemma csts_nodup : forall l, NoDup (flat_map decl_provides l) -> NoDup (map fst (flat_map cst l)).
Proof.
  induction l as [|d l IH]; intros N; cbn; [constructor|]. cbn in N.
  destruct d as [o x t e|o nd|o x t|o x i o']; cbn in N |- *; inversion N; subst; auto; constructor; auto; rewrite csts_provided; auto.
Qed.
Lemma sorted_csorted : forall l, sorted l -> csorted (flat_map cst l).
Proof.
  intros l S a x e b E y R J. apply flat_map_split in E; [|intros d; destruct d; cbn; lia]. destruct E as (l1 & d & l2 & El & Ed & _ & E2).
  destruct d as [o x' t e'| | |]; cbn in Ed; try discriminate. inversion Ed; subst x' e'.
  apply (S l1 _ l2 El (RGlobal y) R). cbn [flat_map decl_provides app]. destruct J as [J|J]; [left; cbn in J; congruence|right].
  rewrite <- E2 in J. apply csts_provided. auto.
Qed.
Lemma accepted_consts : forall p l, result (pipeline p) = Some l -> csorted (flat_map cst l) /\ NoDup (map fst (flat_map cst l)).
Proof.
  intros p l H. destruct (pipeline_inv _ _ H) as (l0 & l1 & l1' & l2 & l3 & F0 & F1 & P & C & F2 & F3 & F4).
  assert (E : flat_map cst l = flat_map cst l1').
  { transitivity (flat_map cst l3); [symmetry; eapply forall2_flat_eq; [exact F4|]|
      transitivity (flat_map cst l2); [symmetry; eapply forall2_flat_eq; [exact F3|]|symmetry; eapply forall2_flat_eq; [exact F2|]]].
    - intros d d' X. destruct d; cbn [pos_decl] in X; try (inversion X; auto; fail). apply obind_some in X. destruct X as (nd' & K & X). inversion X; subst. auto.
    - intros d d' X. destruct d; cbn [kc_decl] in X; try (inversion X; auto; fail); apply obind_some in X; destruct X as (nd' & K & X); inversion X; subst; auto.
    - intros d d' X. inversion X; subst; auto. }
  unfold prog_causality in C. destruct (decls_causality l0) as [m|]; [|discriminate]. destruct (schedule_sorted _ _ C) as [S N].
  rewrite E. split; [apply sorted_csorted|apply csts_nodup]; auto.
Qed.
Theorem constants_permuted : forall p p' l l', result (pipeline p) = Some l -> result (pipeline p') = Some l' -> Permutation l l' ->
  forall ext g, constants ext l = Ok g -> exists g', constants ext l' = Ok g' /\ forall x, g' x = g x.
Proof.
  intros p p' l l' H H' P ext g C. destruct (accepted_consts _ _ H) as [S N]. destruct (accepted_consts _ _ H') as [S' _].
  unfold constants in *. rewrite cenv_const in *. destruct (cenv ext (flat_map cst l) []) as [e|] eqn:E; inversion C; subst.
  destruct (cenv_permuted ext _ (flat_map cst l') e (Permutation_flat_map _ P) N S S' E) as (e' & E' & A). rewrite E'. cbn [bind].
  exists (fun x => lookup x e'). auto.
Qed.
