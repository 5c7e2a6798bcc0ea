(** Verdict and runs of a renamed program. *)
From Coq Require Import String List ZArith Bool Arith Lia Permutation.
From Verif Require Import Model.Base Model.Scalar Model.Value Model.Ast Model.Errors Model.Options Model.Surface Model.Interp
  Model.Translate Model.Graph Model.Causality Model.Typecheck Model.Clockcheck Model.Positivity Model.Constexpr Model.Pipeline
  Spec.RenameSpec Spec.GraphSpec Proofs.AstInd Proofs.OutBasics Proofs.CausalityProofs Proofs.PipelineProofs Proofs.TypePipeline Proofs.Silent Proofs.Stripped Proofs.Renamed Proofs.RenamedChecks
  Proofs.RenamedRun Proofs.RenamedProg Proofs.DeclOrder Proofs.DeclRuns Proofs.ConstOrder.
Import ListNotations.

Lemma result_rmap : forall {A B} (f : A -> B) x, result (rmap f x) = option_map f (result x).
Proof. intros A B f [[a|] es ws|]; auto. Qed.
Lemma obind_result : forall {A B} (x : out A) (f : A -> out B) a, result x = Some a -> result (obind x f) = result (f a).
Proof. intros A B [[x|] es ws|] f a H; cbn in H; inversion H; subst. cbn. destruct (f a); auto. Qed.

(** The passes after causality on a permutation of the declarations. *)
Lemma rest_perm : forall l l' r, Permutation l l' -> sorted l -> sorted l' -> NoDup (flat_map decl_provides l) ->
  (forall d, In d l -> deep d) -> result (rest l) = Some r -> exists r', result (rest l') = Some r' /\ Permutation r r'.
Proof.
  intros l1 l1' l4 P1 S1 S1' N1 Dp H. unfold rest in H.
  apply obind_some in H. destruct H as (l2 & E2 & H). apply obind_some in H. destruct H as (l3 & E3 & E4).
  apply typecheck_true in E2. unfold clockcheck in E3. apply omap_result in E3. unfold positivity in E4. apply omap_result in E4.
  assert (N1' : NoDup (flat_map decl_provides l1')) by (eapply Permutation_NoDup; [apply Permutation_flat_map, P1|auto]).
  apply (tc_sorted l1 [] l2) in E2; auto. cbn [app] in E2.
  destruct (context_perm _ _ P1 N1) as [Cg Cf].
  assert (E2' : exists l2', Permutation l2 l2' /\ result (tc_decls [] [] l1') = Some (true, l2')).
  { destruct (Permutation_Forall2 P1 E2) as (l2' & P2 & F2). exists l2'. split; auto. apply (tc_sorted l1' [] l2'); auto.
    - intros d J. apply Dp. eapply Permutation_in; [apply Permutation_sym, P1|auto].
    - cbn [app]. eapply Forall2_weaken; [|exact F2]. cbn. intros d d' Hd. rewrite <- (tc_one_same _ _ _ _ d Cg Cf). auto. }
  destruct E2' as (l2' & P2 & E2').
  destruct (Permutation_Forall2 P2 E3) as (l3' & P3 & E3'). destruct (Permutation_Forall2 P3 E4) as (l4' & P4 & E4').
  exists l4'. split; auto. unfold rest. apply typecheck_true in E2'. apply omap_result in E3'. apply omap_result in E4'.
  rewrite (obind_result _ _ _ E2'). unfold clockcheck. rewrite (obind_result _ _ _ E3'). auto.
Qed.

Section Prog.
  Variable n : naming.
  Variable p : sprog.
  Hypothesis F : faithful n p.
  Local Notation rg := (of_const n).
  Local Notation rdc := (rdc n).

  Lemma reads : forall a, In a p -> reads_well n (snd a).
  Proof. intros [a [| nd | |]] I; cbn; auto. intros i x J K D. eapply (f_free n p F); eauto. Qed.
  Lemma translated_r : tr_prog (renamed_prog n p) = rmap (map rdc) (tr_prog p).
  Proof. destruct F. apply tr_prog_r; auto using reads. Qed.

  Lemma sorted_r : forall l, sorted l -> sorted (map rdc l).
  Proof.
    intros l S a d b E u R J. apply map_eq_app in E. destruct E as (l1 & l2 & El & E1 & E2). apply map_eq_cons in E2.
    destruct E2 as (d0 & l3 & -> & <- & <-). change (rdc d0 :: map rdc l3) with (map rdc (d0 :: l3)) in J.
    rewrite provided_rdc in J. apply in_map_iff in J. destruct J as (w & <- & J).
    apply (S _ _ _ El w); auto. apply requires_rdc in R; auto; try apply F. apply in_flat_map in J. destruct J as (d & _ & J).
    eapply provides_outer; eauto.
  Qed.
  Lemma nodup_r : forall l, NoDup (flat_map decl_provides l) -> NoDup (flat_map decl_provides (map rdc l)).
  Proof. intros l N. rewrite provided_rdc. apply NoDup_map_inj; auto. apply ro_inj; apply F. Qed.

  Lemma causality_sorted : forall l l1, causality l = done l1 -> sorted l1 /\ NoDup (flat_map decl_provides l1).
  Proof.
    intros l l1 E. assert (R : result (causality l) = Some l1) by (rewrite E; auto). apply causality_true in R.
    unfold prog_causality in R. destruct (decls_causality l); [|discriminate]. eapply schedule_sorted; eauto.
  Qed.
  Lemma causality_deep : forall q l l1, result (tr_prog q) = Some l -> causality l = done l1 -> forall d, In d l1 -> deep d.
  Proof.
    intros q l l1 T E d J. assert (R : result (causality l) = Some l1) by (rewrite E; auto). apply causality_true in R.
    unfold prog_causality in R. destruct (decls_causality l) as [m|] eqn:D; [|discriminate]. apply decls_causality_iff in D.
    apply (schedule_perm _ reference_eqb_spec) in R. destruct R as [R _]. apply (Permutation_in _ R) in J.
    destruct (forall2_in_r _ _ _ D _ J) as (d0 & J0 & D0). unfold tr_prog in T. apply omap_result in T.
    destruct (forall2_in_r _ _ _ T _ J0) as (a & Ja & Ta). eapply accepted_deep; eauto.
  Qed.

  Theorem pipeline_r : 
    (forall l, result (pipeline p) = Some l -> exists l', result (pipeline (renamed_prog n p)) = Some l' /\ Permutation (map rdc l) l') /\
    (forall l', result (pipeline (renamed_prog n p)) = Some l' -> exists l, result (pipeline p) = Some l).
  Proof.
    unfold pipeline. pose proof translated_r as T.
    assert (Tr : result (tr_prog (renamed_prog n p)) = option_map (map rdc) (result (tr_prog p))) by (rewrite T, result_rmap; auto).
    destruct (result (tr_prog p)) as [l0|] eqn:E0; cbn in Tr.
    2:{ split; intros l H; apply obind_some in H; destruct H as (x & H & _); congruence. }
    destruct F as [Fg Ff Ft Fi Fp _].
    rewrite (obind_result _ _ _ E0), (obind_result _ _ _ Tr), !analyse_rest.
    destruct (causality_r n Fg Ff Fi l0) as [(l1 & l1' & C & C' & P)|(o & C & C' & N)].
    - rewrite C, C'. unfold done. cbn [obind].
      assert (X : forall (A : Type) (x : out A), match x with Out o es ws => Out o ([] ++ es) ([] ++ ws) | Abort => Abort end = x) by (intros A [? ? ?|]; auto).
      destruct (causality_sorted _ _ C) as [S1 N1]. destruct (causality_sorted _ _ C') as [S1' N1'].
      pose proof (causality_deep _ _ _ Tr C') as Dp.
      pose proof (rest_r n Fg Ff Ft Fi l1) as R.
      assert (Hr : forall l, result (rest l1) = Some l -> result (rest (map rdc l1)) = Some (map rdc l)) by (intros l H; rewrite R, result_rmap, H; auto).
      split.
      + intros l H. rewrite X in *. apply Hr in H.
        destruct (rest_perm (map rdc l1) l1' (map rdc l)) as (l' & H' & P'); auto using Permutation_sym, sorted_r, nodup_r.
        * intros d J. apply Dp. eapply Permutation_in; [apply Permutation_sym, P|auto].
        * eauto.
      + intros l' H. rewrite X in *.
        destruct (rest_perm l1' (map rdc l1) l') as (m & H' & P'); auto using sorted_r. rewrite R, result_rmap in H'.
        destruct (result (rest l1)) as [l|]; [eauto|discriminate].
    - rewrite C, C'. split; intros l H; apply obind_some in H; destruct H as (x & H & _); rewrite ?result_rmap, N in H; discriminate.
  Qed.

  (** ** Warnings *)
  Lemma warned_rmap : forall {A B} (f : A -> B) x, warned (rmap f x) = warned x.
  Proof. intros A B f [[a|] es ws|]; auto. Qed.
  Theorem accepted_r : forall l ws, compile p = Expanded (Some l) ws ->
    exists l', compile (renamed_prog n p) = Expanded (Some l') ws /\ Permutation (map rdc l) l' /\
      result (pipeline p) = Some l /\ result (pipeline (renamed_prog n p)) = Some l'.
  Proof.
    intros l ws H. unfold compile in H. destruct (pipeline p) as [[m|] es w|] eqn:E; [|destruct es; discriminate|discriminate]. inversion H; subst.
    assert (R : result (pipeline p) = Some l) by (rewrite E; auto). destruct (proj1 pipeline_r _ R) as (l' & R' & P).
    exists l'. split; [|auto]. unfold compile. destruct (pipeline (renamed_prog n p)) as [[m'|] es' w'|] eqn:E'; cbn in R'; inversion R'; subst.
    rewrite (program_warnings _ _ _ _ E), (program_warnings _ _ _ _ E'). f_equal. unfold renamed_prog. clear - F.
    assert (Fn : injective rg /\ injective (of_node n) /\ injective (of_type n) /\ (forall t, primitive_name (of_type n t) <-> primitive_name t)) by (destruct F; auto).
    destruct Fn as (Fg & Ff & Ft & Fp). clear F. induction p as [|a q IH]; auto. cbn [map flat_map fst]. rewrite IH. f_equal.
    rewrite <- (warned_rmap (rdo n) (with_attrs no_opts (fst a))). f_equal. apply (with_attrs_r n) with (o := no_opts); auto.
  Qed.
  Theorem verdict_r : (exists l ws, compile p = Expanded (Some l) ws) <-> (exists l ws, compile (renamed_prog n p) = Expanded (Some l) ws).
  Proof.
    split.
    - intros (l & ws & H). destruct (accepted_r _ _ H) as (l' & H' & _). eauto.
    - intros (l & ws & H). unfold compile in H. destruct (pipeline (renamed_prog n p)) as [[m|] es w|] eqn:E; [|destruct es; discriminate|discriminate].
      destruct (proj2 pipeline_r m) as (l' & R); [rewrite E; auto|]. unfold compile. destruct (pipeline p) as [[k|] es' w'|]; try discriminate. eauto.
  Qed.
  Theorem diagnostics_r : (forall f, inside n f = rg) ->
    match compile p with
    | Expanded (Some l) ws => exists l', compile (renamed_prog n p) = Expanded (Some l') ws
    | Expanded None es => compile (renamed_prog n p) = Expanded None es
    | Crashed => compile (renamed_prog n p) = Crashed
    end.
  Proof.
    intros U. destruct F as [Fg Ff Ft Fi Fp _]. unfold compile.
    rewrite (pipeline_uniform n Fg Ff Ft Fi Fp U p reads). destruct (pipeline p) as [[l|] es ws|]; cbn; eauto. destruct es; auto.
  Qed.

  (** ** Constants *)
  Lemma const_eval_r : forall glob glob' e, (forall x, glob' (rg x) = glob x) -> const_eval glob' (re rg rg e) = const_eval glob e.
  Proof.
    intros glob glob' e G. induction e using expr_ind'; cbn [re const_eval]; auto;
      repeat match goal with H : const_eval glob' (re rg rg ?a) = _ |- _ => rewrite H; clear H end; auto.
    rewrite G. auto.
  Qed.
  Definition rc (c : entry) : entry := (rg (fst c), option_map (re rg rg) (snd c)).
  Lemma cst_r : forall l, flat_map cst (map rdc l) = map rc (flat_map cst l).
  Proof. induction l as [|[] l IH]; cbn; auto; rewrite IH; auto. Qed.
  Lemma cenv_r : forall ext ext' l g, (forall x, ext' (rg x) = ext x) ->
    cenv ext' (map rc l) (map (rent rg (fun s => s)) g) = resmap (map (rent rg (fun s => s))) (cenv ext l g).
  Proof.
    intros ext ext' l g X. revert g. induction l as [|[x e] l IH]; intros g; auto. cbn [map cenv].
    apply (bs (map (rent rg (fun s => s)))).
    - unfold cval, rc. cbn [fst snd]. destruct e as [e|]; cbn [option_map]; [|rewrite X; auto]. apply const_eval_r.
      intros y. rewrite lookup_rent by apply F. destruct (lookup y g); auto.
    - intros s. apply (IH ((x, s) :: g)).
  Qed.
  Lemma csorted_r : forall l, csorted l -> csorted (map rc l).
  Proof.
    intros l S a x e b E y R J. apply map_eq_app in E. destruct E as (l1 & l2 & El & E1 & E2). apply map_eq_cons in E2.
    destruct E2 as ([x0 e0] & l3 & -> & E3 & <-). unfold rc in E3. cbn [fst snd] in E3. destruct e0 as [e0|]; inversion E3; subst x e.
    rewrite (requires_re rg rg (of_node n)) in R. apply in_map_iff in R. destruct R as (w & Ew & R). destruct w; cbn in Ew; inversion Ew; subst.
    apply (S _ _ _ _ eq_refl _ R). destruct J as [J|J]; [left|right].
    - cbn in J |- *. apply (f_const n p F) in J. auto.
    - rewrite map_map in J. apply in_map_iff in J. destruct J as (c & Ec & J). cbn in Ec. apply (f_const n p F) in Ec. subst. apply in_map. auto.
  Qed.
  Lemma rc_inj_names : forall l, NoDup (map fst l) -> NoDup (map fst (map rc l)).
  Proof. intros l N. replace (map fst (map rc l)) with (map rg (map fst l)) by (rewrite !map_map; auto). apply NoDup_map_inj; auto. apply F. Qed.

  Theorem constants_r : forall ext ext' l l', (forall x, ext' (rg x) = ext x) ->
    result (pipeline p) = Some l -> result (pipeline (renamed_prog n p)) = Some l' -> Permutation (map rdc l) l' ->
    (forall g, constants ext l = Ok g -> exists g', constants ext' l' = Ok g' /\ forall x, g' (rg x) = g x) /\
    (forall g', constants ext' l' = Ok g' -> exists g, constants ext l = Ok g).
  Proof.
    intros ext ext' l l' X R R' P. destruct (accepted_consts _ _ R) as [S N], (accepted_consts _ _ R') as [S' N'].
    pose proof (Permutation_flat_map cst P) as Pc. rewrite cst_r in Pc.
    pose proof (cenv_r ext ext' (flat_map cst l) [] X) as C. cbn [map] in C.
    unfold constants. rewrite !cenv_const. split.
    - intros g H. destruct (cenv ext (flat_map cst l) []) as [e|]; cbn in H; inversion H; subst.
      destruct (cenv_permuted ext' _ _ _ Pc (rc_inj_names _ N) (csorted_r _ S) S' C) as (e' & E' & A). rewrite E'.
      exists (fun x => lookup x e'). split; auto. intros x. rewrite A, lookup_rent by apply F. destruct (lookup x e); auto.
    - intros g' H. destruct (cenv ext' (flat_map cst l') []) as [e'|] eqn:E'; cbn in H; inversion H; subst.
      destruct (cenv_permuted ext' _ _ _ (Permutation_sym Pc) N' S' (csorted_r _ S) E') as (e & E & A). rewrite E in C.
      destruct (cenv ext (flat_map cst l) []) as [e0|]; [|discriminate]. cbn. eauto.
  Qed.

  (** ** Runs *)
  Lemma nodes_r : forall l, nodes_of (map rdc l) = map (rnode n) (nodes_of l).
  Proof. intros l. unfold nodes_of. rewrite map_rev. f_equal. induction l as [|[] l IH]; cbn; auto. rewrite IH. auto. Qed.
  Lemma ranked_r : forall q, ranked q -> ranked (map (rnode n) q).
  Proof.
    intros q R a nd b E g G J. apply map_eq_app in E. destruct E as (l1 & l2 & El & <- & E2). apply map_eq_cons in E2.
    destruct E2 as (d0 & l3 & -> & <- & <-). cbn [rnode rnd n_blocks] in G. apply in_map_iff in G. destruct G as (g0 & <- & G).
    apply (R _ _ _ El _ G). change [rnode n d0] with (map (rnode n) [d0]) in J. rewrite <- map_app, map_map in J. apply in_map_iff in J.
    destruct J as (d & Ed & J). cbn in Ed. apply (f_node n p F) in Ed. subst. apply in_map. auto.
  Qed.
  Lemma rnames_nodup : forall q, NoDup (map n_name q) -> NoDup (map n_name (map (rnode n) q)).
  Proof. intros q N. replace (map n_name (map (rnode n) q)) with (map (of_node n) (map n_name q)) by (rewrite !map_map; auto). apply NoDup_map_inj; auto. apply F. Qed.

  Theorem runs_r : forall l l' glob glob', (forall x, glob' (rg x) = glob x) ->
    result (pipeline p) = Some l -> result (pipeline (renamed_prog n p)) = Some l' -> Permutation (map rdc l) l' ->
    (forall mode f ins, outputs_on mode glob' (nodes_of l') (of_node n f) ins = outputs_on mode glob (nodes_of l) f ins) /\
    (forall mode f k fuel, main_fn mode glob' (nodes_of l') (of_node n f) k fuel = option_map (resmap (ri n (nodes_of l) f)) (main_fn mode glob (nodes_of l) f k fuel)).
  Proof.
    intros l l' glob glob' G R R' P. destruct (accepted_ranked _ _ R) as [K N], (accepted_ranked _ _ R') as [K' _].
    pose proof (nodes_perm _ _ P) as Pn. rewrite nodes_r in Pn.
    split; intros.
    - transitivity (outputs_on mode glob' (map (rnode n) (nodes_of l)) (of_node n f) ins); [|apply outputs_r; try apply F; auto]. unfold outputs_on.
      rewrite <- (same_init _ _ Pn (rnames_nodup _ N) (ranked_r _ K) K'). destruct (init_inst _ _); cbn; auto.
      rewrite <- (same_run _ _ Pn (rnames_nodup _ N) (ranked_r _ K) K'). auto.
    - rewrite <- (same_main _ _ Pn (rnames_nodup _ N) (ranked_r _ K) K'). apply main_r; try apply F; auto.
  Qed.
End Prog.

Theorem renamed_runs : forall n p l ws ext ext', faithful n p -> (forall x, ext' (of_const n x) = ext x) ->
  compile p = Expanded (Some l) ws ->
  exists l', compile (renamed_prog n p) = Expanded (Some l') ws /\
    (forall g, constants ext l = Ok g -> exists g', constants ext' l' = Ok g' /\
       (forall x, g' (of_const n x) = g x) /\
       (forall mode f ins, outputs_on mode g' (nodes_of l') (of_node n f) ins = outputs_on mode g (nodes_of l) f ins) /\
       (forall mode f k fuel, ends (main_fn mode g' (nodes_of l') (of_node n f) k fuel) = ends (main_fn mode g (nodes_of l) f k fuel))) /\
    (forall g', constants ext' l' = Ok g' -> exists g, constants ext l = Ok g).
Proof.
  intros n p l ws ext ext' F X H. destruct (accepted_r n p F l ws H) as (l' & H' & P & R & R'). exists l'. split; auto.
  destruct (constants_r n p F ext ext' l l' X R R' P) as [A B]. split; auto. intros g C. destruct (A g C) as (g' & C' & G).
  exists g'. split; auto. split; auto. destruct (runs_r n p F l l' g g' G R R' P) as [O M]. split; auto.
  intros mode f k fuel. rewrite M. unfold ends. destruct (main_fn mode g (nodes_of l) f k fuel) as [[i|e]|]; auto.
Qed.
